(** * A garbage collector running meanwhile

    Go's collector marks objects while the program runs.  It scans the memory cells holding
    pointers one at a time, and each goroutine's stack once.  So as not to miss a pointer that is moved from
    a cell not yet scanned to one already scanned, the compiler has every store to a cell of pointer
    type mark ("shade") the pointer that is overwritten and, unless the stack of the storing
    goroutine has been scanned, the one stored (the hybrid write barrier since Go 1.8,
    go.googlesource.com/proposal/+/master/design/17503-eliminate-rescan.md).  What is not marked at
    the end is freed.

    The elements of []string, [][]byte and [][]T are accessed with their types.  But SortSlice views a
    slice of pointers as one of uint64 or uint32 (sorty.go:152-154, sortySlice.go:73-78): no barrier, and
    what is in variables of such type does not count as a pointer. *)

From Coq Require Import List ZArith Lia Bool Arith.
From Verif Require Import Lang Trace Calls TraceFacts.
Import ListNotations.
Open Scope Z_scope.

(** ** What is on a stack *)

Section Keeps.
Context {P T : Type}.
Variable body : P -> cmd P T unit.

(** [may kid c v]: a goroutine that is to run [c] may store [v] without having read it before, itself
    or ([kid]) a goroutine it starts. *)
Inductive may (kid : cmd P T unit -> T -> Prop) {A} : cmd P T A -> T -> Prop :=
| may_write c i v k : view c = HWrite i v k -> may kid c v
| may_past c i w k v : view c = HWrite i w k -> may kid k v -> may kid c v
| may_tau c c' v : view c = HTau c' -> may kid c' v -> may kid c v
| may_read c i k w v : view c = HRead i k -> w <> v -> may kid (k w) v -> may kid c v
| may_call c p k v : view c = HCall p k -> may kid (k (body p)) v -> may kid c v
| may_fork c p k v : view c = HFork p k -> may kid k v -> may kid c v
| may_kid c p k v : view c = HFork p k -> kid (body p) v -> may kid c v
| may_max c k z v : view c = HLoadMax k -> may kid (k z) v -> may kid c v
| may_gor c k z v : view c = HLoadGor k -> may kid (k z) v -> may kid c v
| may_add c d k z v : view c = HAddGor d k -> may kid (k z) v -> may kid c v
| may_sv c k v : view c = HMakeSv k -> may kid k v -> may kid c v
| may_send c z k v : view c = HSend z k -> may kid k v -> may kid c v
| may_recv c k z v : view c = HRecv k -> may kid (k z) v -> may kid c v.

Inductive kidKeeps : cmd P T unit -> T -> Prop :=
| kid_keeps c v : may kidKeeps c v -> kidKeeps c v.

(** So [v] has to be among the variables of the goroutine. *)
Definition keeps {A} (c : cmd P T A) (v : T) : Prop := may kidKeeps c v.

Hypothesis dec : forall v w : T, v = w \/ v <> w.

Lemma keeps_step {A} (c c' : cmd P T A) s s' fs v : exec_local body c s = Some (c', s', fs) -> keeps c' v ->
  keeps c v \/ exists i k, view c = HRead i k /\ v = mem s i.
Proof.
  unfold exec_local, keeps. intros H Hk. destruct (view c) eqn:E; try discriminate; injection H as <- <- <-.
  - left. eapply may_tau; eassumption.
  - destruct (dec (mem s i) v) as [D|D]; [right; eauto|left]. eapply may_read; eassumption.
  - left. eapply may_past; eassumption.
  - left. eapply may_call; eassumption.
  - left. eapply may_fork; eassumption.
  - left. eapply may_max; eassumption.
  - left. eapply may_gor; eassumption.
  - left. eapply may_add; eassumption.
  - left. eapply may_sv; eassumption.
Qed.

Lemma keeps_fork {A} (c c' : cmd P T A) s s' fs d v : exec_local body c s = Some (c', s', fs) -> In d fs -> keeps d v -> keeps c v.
Proof.
  unfold exec_local, keeps. intros H Hd Hk. destruct (view c) eqn:E; try discriminate; inversion H; subst; try destruct Hd as [].
  - subst. eapply may_kid; [exact E|constructor; exact Hk].
  - contradiction.
Qed.

Context {R : Type}.

(** Goroutine [t] of state [s] (0: the caller) may store [v]. *)
Definition onStack (s : st P T R) (t : nat) (v : T) : Prop :=
  match t with O => keeps (main s) v | S i => exists c, nth_error (thr s) i = Some c /\ keeps c v end.

Lemma nth_mid {X} (l1 : list X) c l2 i d : nth_error (l1 ++ c :: l2) i = Some d ->
  (i = length l1 /\ d = c) \/ (i <> length l1 /\ forall c', nth_error (l1 ++ c' :: l2) i = Some d).
Proof.
  intro H. destruct (Nat.lt_trichotomy i (length l1)) as [L|[->|L]].
  - right. split; [lia|]. intro c'. rewrite nth_error_app1 in * by exact L. exact H.
  - left. rewrite nth_error_app2, Nat.sub_diag in H by lia. inversion H. auto.
  - right. split; [lia|]. intro c'. rewrite nth_error_app2 in * by lia.
    destruct (i - length l1)%nat as [|j] eqn:E; [lia|]. exact H.
Qed.

Lemma nth_here {X} (l1 : list X) c l2 : nth_error (l1 ++ c :: l2) (length l1) = Some c.
Proof. rewrite nth_error_app2, Nat.sub_diag by lia. reflexivity. Qed.

(** Where what a goroutine may store comes from. *)
Lemma onStack_step e s s' t v : tstep body e s s' -> onStack s' t v ->
  onStack s t v \/ (exists x, e = EvRead t x /\ v = mem (sh s) x) \/ (exists p, e = EvGo p t /\ onStack s p v).
Proof.
  intros Hs Hh. destruct Hs as [m ts s m' s' fs Hx|m l1 c l2 s c' s' fs Hx|m l1 c l2 s z k k' H1 H2|m l1 c l2 s z k k' H1 H2
    |m l1 c1 l2 c2 l3 s z k k' H1 H2|m l1 c1 l2 c2 l3 s z k k' H1 H2|m ts s k z H1|m l1 c l2 s k z H1]; cbn [main thr sh] in *.
  - destruct t as [|i]; cbn [onStack main thr] in *.
    + destruct (keeps_step _ _ _ _ _ _ Hx Hh) as [H|(i & k & E & ->)]; [auto|].
      right. left. exists i. unfold label. rewrite E. auto.
    + destruct Hh as (d & Hd & Hk). destruct (Nat.lt_ge_cases i (length ts)) as [L|L].
      * rewrite nth_error_app1 in Hd by exact L. left. eauto.
      * rewrite nth_error_app2 in Hd by exact L. right. right. exists O.
        assert (K := keeps_fork _ _ _ _ _ _ _ Hx (nth_error_In _ _ Hd) Hk). split; [|exact K].
        unfold exec_local in Hx. unfold label. destruct (view m) eqn:E; try discriminate; inversion Hx; subst fs;
          destruct (i - length ts)%nat as [|j] eqn:Ei; cbn in Hd; try discriminate; try (destruct j; discriminate).
        f_equal. lia.
  - destruct t as [|i]; [left; exact Hh|]. cbn [onStack thr] in *. destruct Hh as (d & Hd & Hk).
    rewrite app_comm_cons, app_assoc in Hd. destruct (Nat.lt_ge_cases i (length (l1 ++ c' :: l2))) as [L|L].
    + rewrite nth_error_app1 in Hd by exact L. destruct (nth_mid _ _ _ _ _ Hd) as [[-> ->]|[Hi Hd']].
      * destruct (keeps_step _ _ _ _ _ _ Hx Hk) as [H|(j & k & E & ->)]; [left; exists c; split; [apply nth_here|exact H]|].
        right. left. exists j. unfold label. rewrite E. auto.
      * left. exists d. auto.
    + rewrite nth_error_app2 in Hd by exact L. right. right. exists (S (length l1)).
      assert (K := keeps_fork _ _ _ _ _ _ _ Hx (nth_error_In _ _ Hd) Hk). split; [|exists c; split; [apply nth_here|exact K]].
      rewrite app_length in *. cbn [length] in *.
      unfold exec_local in Hx. unfold label. destruct (view c) eqn:E; try discriminate; inversion Hx; subst fs;
        destruct (i - (length l1 + S (length l2)))%nat as [|j] eqn:Ei; cbn in Hd; try discriminate; try (destruct j; discriminate).
      f_equal. lia.
  - left. destruct t as [|i]; cbn [onStack main thr] in *; [eapply may_recv; eassumption|]. destruct Hh as (d & Hd & Hk).
    destruct (nth_mid _ _ _ _ _ Hd) as [[-> ->]|[Hi Hd']]; [|eauto]. exists c. split; [apply nth_here|]. eapply may_send; eassumption.
  - left. destruct t as [|i]; cbn [onStack main thr] in *; [eapply may_send; eassumption|]. destruct Hh as (d & Hd & Hk).
    destruct (nth_mid _ _ _ _ _ Hd) as [[-> ->]|[Hi Hd']]; [|eauto]. exists c. split; [apply nth_here|]. eapply may_recv; eassumption.
  - left. destruct t as [|i]; cbn [onStack main thr] in *; [exact Hh|]. destruct Hh as (d & Hd & Hk).
    destruct (nth_mid _ _ _ _ _ Hd) as [[-> ->]|[Hi Hd']].
    + exists c1. split; [apply nth_here|]. eapply may_send; eassumption.
    + specialize (Hd' c1). rewrite app_comm_cons, app_assoc in Hd'. rewrite app_comm_cons, app_assoc.
      destruct (nth_mid _ _ _ _ _ Hd') as [[-> ->]|[Hj Hd'']]; [|eauto]. exists c2. split; [apply nth_here|]. eapply may_recv; eassumption.
  - left. destruct t as [|i]; cbn [onStack main thr] in *; [exact Hh|]. destruct Hh as (d & Hd & Hk).
    destruct (nth_mid _ _ _ _ _ Hd) as [[-> ->]|[Hi Hd']].
    + exists c1. split; [apply nth_here|]. eapply may_recv; eassumption.
    + specialize (Hd' c1). rewrite app_comm_cons, app_assoc in Hd'. rewrite app_comm_cons, app_assoc.
      destruct (nth_mid _ _ _ _ _ Hd') as [[-> ->]|[Hj Hd'']]; [|eauto]. exists c2. split; [apply nth_here|]. eapply may_send; eassumption.
  - left. destruct t as [|i]; cbn [onStack main thr] in *; [eapply may_gor; eassumption|exact Hh].
  - left. destruct t as [|i]; cbn [onStack main thr] in *; [exact Hh|]. destruct Hh as (d & Hd & Hk).
    destruct (nth_mid _ _ _ _ _ Hd) as [[-> ->]|[Hi Hd']]; [|eauto]. exists c. split; [apply nth_here|]. eapply may_gor; eassumption.
Qed.

(** What a step does to memory. *)
Lemma mem_step e s s' : tstep body e s s' ->
  (mem (sh s') = mem (sh s) /\ forall t x, e <> EvWrite t x) \/
  exists t x v, e = EvWrite t x /\ onStack s t v /\ mem (sh s') = upd (mem (sh s)) x v /\ In (Some (x, true)) (accesses s).
Proof.
  intro Hs. destruct Hs as [m ts s m' s' fs Hx|m l1 c l2 s c' s' fs Hx| | | | | |]; cbn [sh]; try (left; split; [reflexivity|discriminate]).
  - unfold exec_local in Hx. unfold label. destruct (view m) eqn:E; try discriminate; inversion Hx; subst; cbn [mem];
      try (left; split; [reflexivity|discriminate]).
    right. exists O, i, v. split; [reflexivity|]. split; [cbn; eapply may_write; eassumption|]. split; [reflexivity|].
    left. cbn [main]. unfold access. rewrite E. reflexivity.
  - unfold exec_local in Hx. unfold label. destruct (view c) eqn:E; try discriminate; inversion Hx; subst; cbn [mem];
      try (left; split; [reflexivity|discriminate]).
    right. exists (S (length l1)), i, v. split; [reflexivity|].
    split; [exists c; split; [apply nth_here|eapply may_write; eassumption]|]. split; [reflexivity|].
    right. cbn [thr]. apply in_map_iff. exists c. split; [unfold access; rewrite E; reflexivity|apply in_elt].
Qed.

Lemma read_accesses t x s s' : tstep body (EvRead t x) s s' -> In (Some (x, false)) (accesses (R := R) s).
Proof.
  intro Hs. remember (EvRead t x) as e eqn:Ee. destruct Hs as [m ts s m' s' fs Hx|m l1 c l2 s c' s' fs Hx| | | | | |]; try discriminate.
  - unfold label in Ee. destruct (view m) eqn:E; try discriminate. inversion Ee; subst. left. cbn [main]. unfold access. rewrite E. reflexivity.
  - unfold label in Ee. destruct (view c) eqn:E; try discriminate. inversion Ee; subst. right. cbn [thr]. apply in_map_iff.
    exists c. split; [unfold access; rewrite E; reflexivity|apply in_elt].
Qed.

Lemma go_new p t s s' : tstep body (EvGo p t) s s' -> t = S (length (thr (R := R) s)).
Proof.
  intro Hs. remember (EvGo p t) as e eqn:Ee. destruct Hs as [m ts s m' s' fs Hx|m l1 c l2 s c' s' fs Hx| | | | | |]; try discriminate.
  - unfold label in Ee. destruct (view m) eqn:E; try discriminate. inversion Ee; subst. reflexivity.
  - unfold label in Ee. destruct (view c) eqn:E; try discriminate. inversion Ee; subst. reflexivity.
Qed.

Lemma thr_grow e s s' : tstep body e s s' -> (length (thr (R := R) s) <= length (thr s'))%nat.
Proof.
  intro Hs. destruct Hs; cbn [thr]; rewrite ?app_length; cbn [length]; rewrite ?app_length; cbn [length]; lia.
Qed.

End Keeps.

(** ** Marking *)

(** Marked by the barrier, if there is one, when [s] goes to [s'] by [e]; [N]: the goroutines
    whose stacks have been scanned. *)
Definition shaded {P T R} (barrier : bool) (e : event) (s s' : st P T R) (N : list nat) : list T :=
  match e with
  | EvWrite t x => if barrier then mem (sh s) x :: (if in_dec Nat.eq_dec t N then [] else [mem (sh s') x]) else []
  | _ => []
  end.

(** [marking barrier stacks C M s L X N]: since marking began, at some moment of call [C] that is now in
    state [s], the elements [L] have been marked, the cells [X] and the stacks of goroutines [N] scanned
    (latest first).  [stacks]: what is in variables is recognised as pointers. *)
Inductive marking (barrier stacks : bool) {T} (C : call T) (M : Z) : st (cP C) T unit -> list T -> list Z -> list nat -> Prop :=
| marking_begins k s : reach C M k s -> marking barrier stacks C M s [] [] []
| marking_prog e s s' L X N : marking barrier stacks C M s L X N -> tstep (cProcs C) e s s' ->
    marking barrier stacks C M s' (shaded barrier e s s' N ++ L) X N
| marking_env s s' L X N : marking barrier stacks C M s L X N -> estep M (cCells C) s s' -> marking barrier stacks C M s' L X N
| marking_cell s L X N x : marking barrier stacks C M s L X N -> cCells C x ->
    marking barrier stacks C M s (mem (sh s) x :: L) (x :: X) N
| marking_stack s L X N t vs : marking barrier stacks C M s L X N -> (t <= length (thr s))%nat ->
    (stacks = true -> forall v, onStack (cProcs C) s t v -> In v vs) ->
    marking barrier stacks C M s (vs ++ L) X (t :: N).

(** Marking has ended: all cells and all stacks have been scanned. *)
Definition ended {T} (C : call T) (s : st (cP C) T unit) (X : list Z) (N : list nat) : Prop :=
  (forall x, cCells C x -> In x X) /\ forall t, (t <= length (thr s))%nat -> In t N.

Lemma marking_reach {barrier stacks T} {C : call T} {M s L X N} : marking barrier stacks C M s L X N -> exists k, reach C M k s.
Proof.
  intro H. induction H as [k s H|e s s' L X N H IH Hs|s s' L X N H IH Hs|s L X N x H IH Hx|s L X N t vs H IH Ht Hv]; [eauto| | |exact IH|exact IH].
  - destruct IH as (k & mg0 & Hmg & He). exists (S k), mg0. split; [exact Hmg|]. eapply exec_prog; [exact He|].
    eapply tstep_pstep; exact Hs.
  - destruct IH as (k & mg0 & Hmg & He). exists k, mg0. split; [exact Hmg|]. eapply exec_env; eassumption.
Qed.

Section Seen.
Context {T : Type}.
Variable C : call T.
Variable M : Z.
Hypothesis dec : forall v w : T, v = w \/ v <> w.
Hypothesis Hin : forall k s x w, reach C M k s -> In (Some (x, w)) (accesses s) -> cCells C x.

(** Marked already, or in a cell yet to be scanned. *)
Definition safe (s : st (cP C) T unit) (L : list T) (X : list Z) (v : T) : Prop :=
  In v L \/ exists y, cCells C y /\ ~ In y X /\ mem (sh s) y = v.

Lemma marking_inv s L X N : marking true true C M s L X N ->
  (forall x, In x X -> cCells C x /\ safe s L X (mem (sh s) x)) /\
  (forall t v, In t N -> onStack (cProcs C) s t v -> safe s L X v) /\
  forall t, In t N -> (t <= length (thr s))%nat.
Proof.
  intro H. induction H as [k s H|e s s' L X N H IH Hs|s s' L X N H IH Hs|s L X N x H IH Hx|s L X N t vs H IH Ht Hv].
  - split; [intros x []|]. split; [intros t v []|intros t []].
  - destruct IH as (I1 & I2 & I3). destruct (marking_reach H) as (k & HR).
    assert (Keep : forall v, safe s L X v -> safe s' (shaded true e s s' N ++ L) X v).
    { intros v [Hv|(y & Hy & Hny & Ey)]; [left; apply in_app_iff; auto|].
      destruct (mem_step _ _ _ _ Hs) as [[Em _]|(t & x & w & -> & _ & Em & _)].
      - right. exists y. rewrite Em. auto.
      - destruct (Z.eq_dec y x) as [->|D].
        + left. cbn [shaded]. left. exact Ey.
        + right. exists y. split; [exact Hy|]. split; [exact Hny|]. rewrite Em. unfold upd.
          destruct (Z.eqb_spec y x); [contradiction|exact Ey]. }
    split; [|split].
    + intros x Hx. destruct (I1 x Hx) as [Hc Hsafe]. split; [exact Hc|].
      destruct (mem_step _ _ _ _ Hs) as [[Em _]|(t & y & w & -> & Hw & Em & _)]; [rewrite Em; apply Keep; exact Hsafe|].
      destruct (Z.eq_dec x y) as [->|D].
      * assert (Ew : mem (sh s') y = w) by (rewrite Em; unfold upd; rewrite Z.eqb_refl; reflexivity).
        rewrite Ew. destruct (in_dec Nat.eq_dec t N) as [Ht|Ht].
        -- apply Keep. apply (I2 t w Ht Hw).
        -- left. cbn [shaded]. right. destruct (in_dec Nat.eq_dec t N); [contradiction|]. left. exact Ew.
      * assert (Ex : mem (sh s') x = mem (sh s) x) by (rewrite Em; unfold upd; destruct (Z.eqb_spec x y); [contradiction|reflexivity]).
        rewrite Ex. apply Keep. exact Hsafe.
    + intros t v Ht Hh. apply Keep. destruct (onStack_step _ dec _ _ _ _ _ Hs Hh) as [Ho|[(x & -> & ->)|(p & -> & _)]].
      * apply (I2 t v Ht Ho).
      * assert (Hx : cCells C x) by (eapply Hin; [exact HR|eapply read_accesses; exact Hs]).
        destruct (in_dec Z.eq_dec x X) as [Hd|Hd]; [apply (I1 x Hd)|]. right. exists x. auto.
      * exfalso. apply go_new in Hs. specialize (I3 t Ht). lia.
    + intros t Ht. specialize (I3 t Ht). assert (G := thr_grow _ _ _ _ Hs). lia.
  - destruct IH as (I1 & I2 & I3). destruct Hs as [m ts s0 mem' mg' Hmg Hm].
    assert (Keep : forall v, safe (St m ts s0) L X v -> safe (St m ts (Sh mem' (ngor s0) mg' (chans s0))) L X v).
    { intros v [Hv|(y & Hy & Hny & Ey)]; [left; exact Hv|right]. exists y. cbn [sh mem] in *. rewrite (Hm y Hy). auto. }
    split; [|split; [|exact I3]].
    + intros x Hx. destruct (I1 x Hx) as [Hc Hsafe]. split; [exact Hc|]. cbn [sh mem] in *. rewrite (Hm x Hc). apply Keep. exact Hsafe.
    + intros t v Ht Hh. apply Keep. apply (I2 t v Ht). exact Hh.
  - destruct IH as (I1 & I2 & I3).
    assert (Keep : forall v, safe s L X v -> safe s (mem (sh s) x :: L) (x :: X) v).
    { intros v [Hv|(y & Hy & Hny & Ey)]; [left; right; exact Hv|]. destruct (Z.eq_dec y x) as [->|D]; [left; left; exact Ey|].
      right. exists y. split; [exact Hy|]. split; [|exact Ey]. intros [E|E]; [congruence|contradiction]. }
    split; [|split; [|exact I3]].
    + intros y [<-|Hy]; [split; [exact Hx|left; left; reflexivity]|]. destruct (I1 y Hy) as [Hc Hsafe]. split; [exact Hc|apply Keep; exact Hsafe].
    + intros t v Ht Hh. apply Keep. apply (I2 t v Ht Hh).
  - destruct IH as (I1 & I2 & I3).
    assert (Keep : forall v, safe s L X v -> safe s (vs ++ L) X v).
    { intros v [Hv'|Hy]; [left; apply in_app_iff; auto|right; exact Hy]. }
    split; [|split].
    + intros x Hx. destruct (I1 x Hx) as [Hc Hsafe]. split; [exact Hc|apply Keep; exact Hsafe].
    + intros u v [<-|Hu] Hh; [left; apply in_app_iff; left; apply Hv; auto|]. apply Keep. apply (I2 u v Hu Hh).
    + intros u [<-|Hu]; [exact Ht|apply I3; exact Hu].
Qed.

(** Whatever will be in the cells is marked. *)
Theorem marking_seen s L X N : marking true true C M s L X N -> ended C s X N ->
  forall tr s', texec (cProcs C) M (cCells C) tr s s' -> forall x, cCells C x -> In (mem (sh s') x) L.
Proof.
  intros H [HX HN] tr s' Ht. destruct (marking_inv s L X N H) as (I1 & I2 & I3).
  assert (Safe : forall v, safe s L X v -> In v L) by (intros v [Hv|(y & Hy & Hny & _)]; [exact Hv|exfalso; apply Hny, HX, Hy]).
  destruct (marking_reach H) as (k & HR).
  enough (G : (exists k, reach C M k s') /\ (forall x, cCells C x -> In (mem (sh s') x) L) /\ forall t v, onStack (cProcs C) s' t v -> In v L) by apply G.
  induction Ht as [s|tr e s s1 s2 Ht IH Hs|tr s s1 s2 Ht IH Hs].
  - split; [eauto|]. split; [intros x Hx; apply Safe, I1, HX, Hx|]. intros t v Hh. apply Safe. apply (I2 t v); [|exact Hh].
    apply HN. destruct t as [|i]; [lia|]. destruct Hh as (c & Hc & _). assert (i < length (thr s))%nat by (apply nth_error_Some; congruence). lia.
  - destruct (IH H HN I1 I2 I3 Safe HR) as ((k1 & HR1) & J1 & J2). split; [|split].
    + exists (S k1). destruct HR1 as (mg0 & Hmg & He). exists mg0. split; [exact Hmg|]. eapply exec_prog; [exact He|]. eapply tstep_pstep; exact Hs.
    + intros x Hx. destruct (mem_step _ _ _ _ Hs) as [[Em _]|(t & y & w & -> & Hw & Em & _)]; rewrite Em; [apply J1; exact Hx|].
      unfold upd. destruct (x =? y); [eapply J2; exact Hw|apply J1; exact Hx].
    + intros t v Hh. destruct (onStack_step _ dec _ _ _ _ _ Hs Hh) as [Ho|[(x & -> & ->)|(p & -> & Ho)]]; [eapply J2; exact Ho| |eapply J2; exact Ho].
      apply J1. eapply Hin; [exact HR1|eapply read_accesses; exact Hs].
  - destruct (IH H HN I1 I2 I3 Safe HR) as ((k1 & HR1) & J1 & J2). split; [|split].
    + exists k1. destruct HR1 as (mg0 & Hmg & He). exists mg0. split; [exact Hmg|]. eapply exec_env; eassumption.
    + intros x Hx. destruct Hs as [m ts s0 mem' mg' Hmg Hm]. cbn [sh mem] in *. rewrite (Hm x Hx). apply J1. exact Hx.
    + intros t v Hh. destruct Hs as [m ts s0 mem' mg' Hmg Hm]. apply (J2 t v). exact Hh.
Qed.

End Seen.

(** If no cell is written to, nothing is missed, barrier or not. *)
Lemma marking_still barrier stacks {T} (C : call T) M s L X N :
  (forall k s x, reach C M k s -> cCells C x -> mem (sh s) x = cInit C x) ->
  marking barrier stacks C M s L X N -> forall x, In x X -> In (cInit C x) L.
Proof.
  intros Hst H. induction H as [k s H|e s s' L X N H IH Hs|s s' L X N H IH Hs|s L X N x H IH Hx|s L X N t vs H IH Ht Hv];
    intros y Hy; [contradiction| |apply IH; exact Hy| |].
  - apply in_app_iff. right. apply IH. exact Hy.
  - destruct Hy as [<-|Hy]; [|right; apply IH; exact Hy]. destruct (marking_reach H) as (k & HR).
    left. exact (Hst k s x HR Hx).
  - apply in_app_iff. right. apply IH. exact Hy.
Qed.

(** Steps of a run, and nothing but these. *)
Lemma marking_exec barrier stacks {T} (C : call T) M s L X N k s' : marking barrier stacks C M s L X N ->
  exec (cProcs C) M (cCells C) k s s' -> exists L', marking barrier stacks C M s' L' X N /\ incl L L' /\ (barrier = false -> L' = L).
Proof.
  intros H He. induction He as [s|k s s1 s2 He IH Hs|k s s1 s2 He IH Hs].
  - exists L. split; [exact H|]. split; [apply incl_refl|reflexivity].
  - destruct (IH H) as (L1 & H1 & H2 & H3). destruct (pstep_tstep _ _ _ Hs) as (e & Ht).
    exists (shaded barrier e s1 s2 N ++ L1). split; [eapply marking_prog; eassumption|]. split.
    + apply incl_appr. exact H2.
    + intro E. rewrite (H3 E), E. unfold shaded. destruct e; reflexivity.
  - destruct (IH H) as (L1 & H1 & H2 & H3). exists L1. split; [eapply marking_env; eassumption|]. auto.
Qed.

Lemma returned_holds_nothing {P T R} (body : P -> cmd P T unit) (s : st P T R) t v :
  (forall c, In c (thr s) -> exists r, view c = HRet r) -> (exists r, view (main s) = HRet r) -> ~ onStack body s t v.
Proof.
  intros Ht [r Hm] Hh. destruct t as [|i].
  - destruct Hh; congruence.
  - destruct Hh as (c & Hc & Hk). destruct (Ht c (nth_error_In _ _ Hc)) as [q Hq]. destruct Hk; congruence.
Qed.

(** The cells scanned at once. *)
Lemma marking_cells barrier stacks {T} (C : call T) M s L X N l : marking barrier stacks C M s L X N ->
  (forall x, In x l -> cCells C x) -> marking barrier stacks C M s (rev (map (mem (sh s)) l) ++ L) (rev l ++ X) N.
Proof.
  revert L X. induction l as [|x l IH]; intros L X H Hl; cbn [map rev app]; [exact H|].
  rewrite <- !app_assoc. cbn [app]. apply IH; [|intros y Hy; apply Hl; right; exact Hy].
  apply marking_cell; [exact H|apply Hl; left; reflexivity].
Qed.

(** The stacks scanned at once, when nothing is on them. *)
Lemma marking_stacks barrier stacks {T} (C : call T) M s L X N n : marking barrier stacks C M s L X N ->
  (forall t v, ~ onStack (cProcs C) s t v) -> (n <= S (length (thr s)))%nat -> marking barrier stacks C M s L X (rev (seq 0 n) ++ N).
Proof.
  intros H Hn. induction n as [|n IH]; intro Hl; [exact H|].
  rewrite seq_S, rev_app_distr. cbn [rev app Nat.add].
  apply (marking_stack barrier stacks C M s L X (rev (seq 0 n) ++ N) n []); [apply IH; lia|lia|].
  intros _ v Hv. exfalso. eapply Hn; exact Hv.
Qed.
