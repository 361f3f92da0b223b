(** * Concurrent program logic

    Proof rules for programs that start goroutines.  Every goroutine carries a ghost
    state: the cells it may write ([dom]) and read ([rd]), the values it knows for them
    ([val]), what it has to deliver ([md]) and the last value of MaxGor it has seen.
    [Soundness.v] shows what a program accepted by these rules does on the machine of
    [Lang.v]. *)

From Coq Require Import List ZArith Lia Bool.
From Verif Require Import Lang SeqLogic.
Import ListNotations.
Open Scope Z_scope.

Definition cells := Z -> Prop.
Definition empty : cells := fun _ => False.
Definition minus (a b : cells) : cells := fun i => a i /\ ~ b i.
Definition union (a b : cells) : cells := fun i => a i \/ b i.

(** A goroutine is started only for a range of more than [gr] elements, and its starter
    keeps more than [gr] elements: MaxLenRec (MaxLenRecFC) in the calls of [Calls.v].
    [frozen]: no element is written at all. *)
Class grain := Grain { gr : nat; frozen : bool }.
Class thawed (Gr : grain) : Prop := isThawed : frozen = false.
Global Instance thawed_grain n : thawed (Grain n false).
Proof. reflexivity. Qed.

Definition atLeast (n : nat) (d : cells) : Prop :=
  exists l, NoDup l /\ length l = n /\ forall i, In i l -> d i.
Definition many {Gr : grain} (d : cells) : Prop := atLeast (S gr) d.
Definition twice {Gr : grain} (d : cells) : Prop := atLeast (S gr + S gr) d.

Lemma atLeast_sub n (d d' : cells) : (forall i, d i -> d' i) -> atLeast n d -> atLeast n d'.
Proof. intros H (l & A & B & C). exists l. auto. Qed.

Lemma atLeast_ex n d : atLeast (S n) d -> exists i, d i.
Proof. intros ([|i l] & A & B & C); [discriminate|]. exists i. apply C. left. reflexivity. Qed.

Lemma atLeast_app n m (d d1 d2 : cells) : (forall i, d1 i -> d i) -> (forall i, d2 i -> d i) ->
  (forall i, d1 i -> ~ d2 i) -> atLeast n d1 -> atLeast m d2 -> atLeast (n + m) d.
Proof.
  intros H1 H2 H12 (l & A & B & C) (l' & A' & B' & C'). exists (l ++ l'). split; [|split].
  - clear B B'. induction l as [|i l IH]; [exact A'|]. inversion A; subst. cbn. constructor.
    + rewrite in_app_iff. intros [Hi|Hi]; [contradiction|]. apply (H12 i); [apply C; left; reflexivity|auto].
    + apply IH; [assumption|]. intros j Hj. apply C. right. exact Hj.
  - rewrite app_length. congruence.
  - intros i Hi. apply in_app_iff in Hi. destruct Hi; auto.
Qed.

Section Ghost.
Context {T : Type}.

(** An assertion about the memory, made by one goroutine for the others. *)
Definition promise := (Z -> T) -> Prop.

(** What the caller gets back from the partner that partitions the middle part: the
    cells [j_D], and the assertion [j_post v] when [v] is received. *)
Record join := Join { j_D : cells; j_post : Z -> promise }.

Record act := Act {
  a_main : option promise;   (* Some P: this is the caller, and P is the promise to collect *)
  a_P : promise;             (* to be established by this goroutine before it signs off *)
  a_credit : bool;           (* counter was incremented for a goroutine to be started *)
  a_tok : bool;              (* last look at the counter: quota not full *)
  a_join : option join       (* partner running *)
}.

Inductive mode :=
| MSeq                       (* caller, single-goroutine sorting *)
| MInit                      (* caller, no counter/channel yet *)
| MAct (a : act)             (* counted in nGor *)
| MPart (j : join)           (* partner of a concurrent partition *)
| MWait (Pf : promise)       (* caller waiting for the end signal *)
| MFinal (Pf : promise)      (* caller, all promises collected *)
| MLast                      (* has to send the end signal *)
| MDone.

Record gst := Gst { dom : cells; rd : cells; val : Z -> T; md : mode; seen : Z }.

Definition setval g v := Gst (dom g) (rd g) v (md g) (seen g).
Definition setmd g m := Gst (dom g) (rd g) (val g) m (seen g).
Definition setseen g m := Gst (dom g) (rd g) (val g) (md g) m.
Definition noown g m := Gst empty empty (val g) m (seen g).
Definition settok a b := Act (a_main a) (a_P a) (a_credit a) b (a_join a).
Definition setcredit a := Act (a_main a) (a_P a) true false (a_join a).
Definition setjoin a j := Act (a_main a) (a_P a) (a_credit a) (a_tok a) j.
Definition forked a P2 := Act (a_main a) P2 false (a_tok a) (a_join a).

Definition live (g : gst) : Prop :=
  match md g with MSeq | MInit | MAct _ | MPart _ => True | _ => False end.

Definition agrees (g : gst) (w : Z -> T) : Prop := forall i, rd g i -> w i = val g i.

(** Mode after decrementing the counter to [z]. *)
Definition signed_off (a : act) (z : Z) : mode :=
  match a_main a with
  | None => if z =? 0 then MLast else MDone
  | Some Pf => if z =? 0 then MFinal Pf else MWait Pf
  end.

End Ghost.
Arguments promise : clear implicits.
Arguments join : clear implicits.
Arguments act : clear implicits.
Arguments mode : clear implicits.
Arguments gst : clear implicits.

Section Conc.
Context {Gr : grain}.
Context {P T : Type}.
Variable body : P -> cmd P T unit.
Variable W : nat -> cmd P T unit -> gst T -> Prop.    (* obligation for started goroutines *)

Inductive wp (D : nat) {A : Type} (Q : A -> nat -> gst T -> Prop)
  (n : nat) (c : cmd P T A) (g : gst T) : Prop :=
| wp_HRet a : (depth c <= D)%nat -> view c = HRet a -> Q a n g -> wp D Q n c g
| wp_HTau n' c' : (depth c <= D)%nat -> view c = HTau c' -> n = S n' ->
    wp D Q n' c' g -> wp D Q n c g
| wp_HRead n' i k : (depth c <= D)%nat -> view c = HRead i k -> n = S n' ->
    live g -> rd g i -> wp D Q n' (k (val g i)) g -> wp D Q n c g
| wp_HWrite n' i x k : (depth c <= D)%nat -> view c = HWrite i x k -> n = S n' ->
    live g -> dom g i -> frozen = false -> wp D Q n' k (setval g (upd (val g) i x)) -> wp D Q n c g
| wp_HCall n' p k : (depth c <= D)%nat -> view c = HCall p k -> n = S n' ->
    live g -> wp D Q n' (k (body p)) g -> wp D Q n c g
| wp_HLoadMax n' k : (depth c <= D)%nat -> view c = HLoadMax k -> n = S n' ->
    live g -> (forall m, 0 <= m -> wp D Q n' (k m) (setseen g m)) -> wp D Q n c g
| wp_HLoadGor n' k a : (depth c <= D)%nat -> view c = HLoadGor k -> n = S n' ->
    md g = MAct a -> a_credit a = false -> a_join a = None ->
    (forall z, wp D Q n' (k z) (setmd g (MAct (settok a (z <? seen g))))) -> wp D Q n c g
| wp_HMakeSv n' k Pr : (depth c <= D)%nat -> view c = HMakeSv k -> n = S n' ->
    md g = MInit -> 1 < seen g -> many (dom g) ->
    wp D Q n' k (setmd g (MAct (Act (Some Pr) Pr false true None))) -> wp D Q n c g
| wp_HAddGor_inc n' k a : (depth c <= D)%nat -> view c = HAddGor 1 k -> n = S n' ->
    md g = MAct a -> a_credit a = false -> a_tok a = true -> a_join a = None ->
    twice (dom g) ->
    (forall z, wp D Q n' (k z) (setmd g (MAct (setcredit a)))) -> wp D Q n c g
| wp_HAddGor_dec n' k a : (depth c <= D)%nat -> view c = HAddGor (two64 - 1) k -> n = S n' ->
    md g = MAct a -> a_credit a = false -> a_join a = None ->
    (forall w, agrees g w -> a_P a w) ->
    (forall z, 0 <= z -> wp D Q n' (k z) (noown g (signed_off a z))) -> wp D Q n c g
| wp_HFork_credit n' p k a (d1 : cells) (P1 P2 : promise T) n1 n2 :
    (depth c <= D)%nat -> view c = HFork p k -> n = S n' ->
    md g = MAct a -> a_credit a = true -> a_join a = None ->
    (forall i, d1 i -> dom g i) -> many d1 -> many (minus (dom g) d1) ->
    (forall w, P1 w -> P2 w -> a_P a w) -> (n1 + n2 <= n')%nat ->
    W n1 (body p) (Gst d1 d1 (val g) (MAct (Act None P1 false false None)) 0) ->
    wp D Q n2 k (Gst (minus (dom g) d1) (minus (rd g) d1) (val g) (MAct (forked a P2)) (seen g)) ->
    wp D Q n c g
| wp_HFork_part n' p k a (dj d2 r2 : cells) post n1 n2 :
    (depth c <= D)%nat -> view c = HFork p k -> n = S n' ->
    md g = MAct a -> a_main a <> None -> a_credit a = false -> a_tok a = true -> a_join a = None ->
    (forall i, dj i -> dom g i) -> (forall i, d2 i -> r2 i) -> (forall i, r2 i -> dj i) ->
    twice (dom g) -> (forall i, dj i \/ ~ dj i) -> (n1 + n2 <= n')%nat ->
    W n1 (body p) (Gst d2 r2 (val g) (MPart (Join dj post)) 0) ->
    wp D Q n2 k (Gst (minus (dom g) dj) (minus (rd g) d2) (val g)
                     (MAct (setjoin a (Some (Join dj post)))) (seen g)) ->
    wp D Q n c g
| wp_HSend_part n' v k j : (depth c <= D)%nat -> view c = HSend v k -> n = S n' ->
    md g = MPart j -> (forall w, agrees g w -> j_post j v w) ->
    wp D Q n' k (noown g MDone) -> wp D Q n c g
| wp_HSend_last n' v k : (depth c <= D)%nat -> view c = HSend v k -> n = S n' ->
    md g = MLast -> wp D Q n' k (noown g MDone) -> wp D Q n c g
| wp_HRecv_join n' k a j : (depth c <= D)%nat -> view c = HRecv k -> n = S n' ->
    md g = MAct a -> a_join a = Some j ->
    (forall v w, agrees g w -> j_post j v w ->
       wp D Q n' (k v) (Gst (union (dom g) (j_D j)) (union (rd g) (j_D j)) w
                            (MAct (setjoin a None)) (seen g))) ->
    wp D Q n c g
| wp_HRecv_wait n' k Pf : (depth c <= D)%nat -> view c = HRecv k -> n = S n' ->
    md g = MWait Pf -> (forall v, wp D Q n' (k v) (setmd g (MFinal Pf))) -> wp D Q n c g.

Lemma wp_depth D {A} (Q : A -> nat -> gst T -> Prop) n c g : wp D Q n c g -> (depth c <= D)%nat.
Proof. destruct 1; assumption. Qed.

Lemma wp_use D1 D {A} (Q1 Q : A -> nat -> gst T -> Prop) n1 c g :
  wp D1 Q1 n1 c g -> (D1 <= D)%nat -> forall e,
  (forall a m g', (m <= n1)%nat -> Q1 a m g' -> Q a (m + e)%nat g') ->
  wp D Q (n1 + e) c g.
Proof.
  intros H HD e.
  induction H; subst; intro HQ.
  - eapply wp_HRet; [lia|eassumption|]. apply HQ; [lia|assumption].
  - eapply wp_HTau; [lia|eassumption|simpl; reflexivity|]. apply IHwp; auto.
  - eapply wp_HRead; [lia|eassumption|simpl; reflexivity|auto..].
  - eapply wp_HWrite; [lia|eassumption|simpl; reflexivity|auto..].
  - eapply wp_HCall; [lia|eassumption|simpl; reflexivity|auto..].
  - eapply wp_HLoadMax; [lia|eassumption|simpl; reflexivity|auto..].
  - eapply wp_HLoadGor; [lia|eassumption|simpl; reflexivity|eassumption|auto..].
  - eapply wp_HMakeSv; [lia|eassumption|simpl; reflexivity|auto..|]. apply IHwp; auto.
  - eapply wp_HAddGor_inc; [lia|eassumption|simpl; reflexivity|eassumption|auto..].
  - eapply wp_HAddGor_dec; [lia|eassumption|simpl; reflexivity|eassumption|auto..].
  - eapply wp_HFork_credit with (n' := (n' + e)%nat) (n1 := n1) (n2 := (n2 + e)%nat) (d1 := d1);
      [lia|eassumption|simpl; reflexivity|eassumption|try assumption..].
    + eassumption.
    + lia.
    + assumption.
    + apply IHwp. intros; apply HQ; auto; lia.
  - eapply wp_HFork_part with (n' := (n' + e)%nat) (n1 := n1) (n2 := (n2 + e)%nat) (dj := dj) (d2 := d2) (r2 := r2);
      [lia|eassumption|simpl; reflexivity|eassumption|try assumption..].
    + lia.
    + eassumption.
    + apply IHwp. intros; apply HQ; auto; lia.
  - eapply wp_HSend_part; [lia|eassumption|simpl; reflexivity|eassumption|auto..].
  - eapply wp_HSend_last; [lia|eassumption|simpl; reflexivity|auto..].
  - eapply wp_HRecv_join; [lia|eassumption|simpl; reflexivity|eassumption|eassumption|auto..].
  - eapply wp_HRecv_wait; [lia|eassumption|simpl; reflexivity|eassumption|auto..].
Qed.

Lemma wp_conseq D {A} (Q1 Q : A -> nat -> gst T -> Prop) n c g :
  wp D Q1 n c g -> (forall a m g', (m <= n)%nat -> Q1 a m g' -> Q a m g') -> wp D Q n c g.
Proof.
  intros H HQ. replace n with (n + 0)%nat by lia. eapply wp_use; [exact H|lia|].
  intros a m g' Hm H1. rewrite Nat.add_0_r. auto.
Qed.

Lemma wp_more D1 D {A} (Q1 Q : A -> nat -> gst T -> Prop) n1 n c g :
  wp D1 Q1 n1 c g -> (D1 <= D)%nat -> (n1 <= n)%nat ->
  (forall a m g', (m <= n1)%nat -> Q1 a m g' -> Q a (m + (n - n1))%nat g') ->
  wp D Q n c g.
Proof.
  intros H HD Hn HQ. replace n with (n1 + (n - n1))%nat by lia. eapply wp_use; eauto.
Qed.

Lemma wp_ret D {A} (Q : A -> nat -> gst T -> Prop) n a g : Q a n g -> wp D Q n (Ret a) g.
Proof. intro H. eapply wp_HRet; simpl; eauto; lia. Qed.

(** [ctx] is an evaluation context: it passes every head of its argument through. *)
Lemma wp_ctx D D1 {A B} (Q1 : B -> nat -> gst T -> Prop) (Q : A -> nat -> gst T -> Prop)
  (ctx : cmd P T B -> cmd P T A) n c g :
  (forall c, (depth c <= D1)%nat -> (depth (ctx c) <= D)%nat) ->
  (forall c, match view c with HRet _ => True | h => view (ctx c) = hcont ctx h end) ->
  (forall b c m g', (depth c <= D1)%nat -> view c = HRet b -> Q1 b m g' -> wp D Q m (ctx c) g') ->
  wp D1 Q1 n c g -> wp D Q n (ctx c) g.
Proof.
  intros HD HC HR H.
  induction H; try (specialize (HC c)); subst;
    match goal with H : view c = _ |- _ => rewrite H in HC; simpl in HC | _ => idtac end.
  - eapply HR; eauto.
  - eapply wp_HTau; eauto.
  - eapply wp_HRead; eauto.
  - eapply wp_HWrite; eauto.
  - eapply wp_HCall; eauto.
  - eapply wp_HLoadMax; eauto.
  - eapply wp_HLoadGor; eauto.
  - eapply wp_HMakeSv; eauto.
  - eapply wp_HAddGor_inc; eauto.
  - eapply wp_HAddGor_dec; eauto.
  - eapply wp_HFork_credit with (n1 := n1) (n2 := n2) (d1 := d1) (P1 := P1) (P2 := P2); eauto.
  - eapply wp_HFork_part with (n1 := n1) (n2 := n2) (dj := dj) (d2 := d2) (r2 := r2); eauto.
  - eapply wp_HSend_part; eauto.
  - eapply wp_HSend_last; eauto.
  - eapply wp_HRecv_join; eauto.
  - eapply wp_HRecv_wait; eauto.
Qed.

Lemma wp_bind D {A B} (Q : A -> nat -> gst T -> Prop) n (c : cmd P T B) k g :
  wp D (fun b m g' => wp D Q m (k b) g') n c g -> wp D Q n (Bind c k) g.
Proof.
  apply (wp_ctx D D _ Q (fun c => Bind c k)).
  - simpl; auto.
  - intro c0. simpl. destruct (view c0); auto.
  - intros b c0 m g' Hd Hv H.
    assert (E : view (Bind c0 k) = view (k b)) by (simpl; rewrite Hv; reflexivity).
    assert (Hd' : (depth (Bind c0 k) <= D)%nat) by (simpl; exact Hd).
    destruct H; rewrite <- E in *.
    + eapply wp_HRet; eauto.
    + eapply wp_HTau; eauto.
    + eapply wp_HRead; eauto.
    + eapply wp_HWrite; eauto.
    + eapply wp_HCall; eauto.
    + eapply wp_HLoadMax; eauto.
    + eapply wp_HLoadGor; eauto.
    + eapply wp_HMakeSv; eauto.
    + eapply wp_HAddGor_inc; eauto.
    + eapply wp_HAddGor_dec; eauto.
    + eapply wp_HFork_credit with (n1 := n1) (n2 := n2) (d1 := d1) (P1 := P1) (P2 := P2); eauto.
    + eapply wp_HFork_part with (n1 := n1) (n2 := n2) (dj := dj) (d2 := d2) (r2 := r2); eauto.
    + eapply wp_HSend_part; eauto.
    + eapply wp_HSend_last; eauto.
    + eapply wp_HRecv_join; eauto.
    + eapply wp_HRecv_wait; eauto.
Qed.

Lemma wp_incall D {A} (Q : A -> nat -> gst T -> Prop) n c k g :
  wp D (fun _ m g' => (0 < m)%nat /\ wp (S D) Q (m - 1) k g') n c g ->
  wp (S D) Q n (InCall c k) g.
Proof.
  apply (wp_ctx (S D) D _ Q (fun c => InCall c k)).
  - simpl; intros; lia.
  - intro c0. simpl. destruct (view c0); auto.
  - intros b c0 m g' Hd Hv [Hm H].
    eapply wp_HTau with (n' := (m - 1)%nat); [simpl; lia| |lia|exact H].
    simpl. rewrite Hv. reflexivity.
Qed.

Lemma wp_call D {A} (Q : A -> nat -> gst T -> Prop) n p k g :
  (0 < n)%nat -> live g ->
  wp D (fun _ m g' => (0 < m)%nat /\ wp (S D) Q (m - 1) k g') (n - 1) (body p) g ->
  wp (S D) Q n (Call p k) g.
Proof.
  intros Hn Hl H. eapply wp_HCall with (n' := (n - 1)%nat); simpl; [lia|reflexivity|lia|exact Hl|].
  apply wp_incall. exact H.
Qed.

Lemma wp_loop D {A S} (Q : A -> nat -> gst T -> Prop) n (s : S) bd g :
  (0 < n)%nat ->
  wp D (fun r m g' => match r with
                      | inl s' => wp D Q m (Loop s' bd) g'
                      | inr a => Q a m g'
                      end) (n - 1) (bd s) g ->
  wp D Q n (Loop s bd) g.
Proof.
  intros Hn H. eapply wp_HTau with (n' := (n - 1)%nat); simpl; [lia|reflexivity|lia|].
  apply wp_bind. eapply wp_conseq; [exact H|].
  intros [s'|a] m g' _ Hq; [exact Hq|apply wp_ret; exact Hq].
Qed.

(** Sequential code inside a goroutine. *)
Lemma wp_seq D {A} (Q1 : A -> nat -> (Z -> T) -> Prop) (Q : A -> nat -> gst T -> Prop) n c g :
  live g -> swp body D n (rd g) (fun i => dom g i /\ frozen = false) Q1 c (val g) ->
  (forall a m v', (m <= n)%nat -> Q1 a m v' -> Q a m (setval g v')) ->
  wp D Q n c g.
Proof.
  intros Hl H HQ.
  assert (G : forall v, swp body D n (rd g) (fun i => dom g i /\ frozen = false) Q1 c v -> wp D Q n c (setval g v)).
  2:{ destruct g; apply G; exact H. }
  clear H. revert c HQ; induction n as [|n IH]; intros c HQ v H; rewrite swp_eq in H; destruct H as [Hd H];
    destruct (view c) eqn:E; try contradiction.
  - eapply wp_HRet; eauto.
  - eapply wp_HRet; eauto.
  - eapply wp_HTau; eauto.
  - destruct H. eapply wp_HRead; eauto.
  - destruct H as [[H1 H2] H3]. eapply wp_HWrite; eauto.
  - eapply wp_HCall; eauto.
Qed.

(** Axiom-free elementary rules. *)
Lemma wp_loadmax D {A} (Q : A -> nat -> gst T -> Prop) n k g :
  (0 < n)%nat -> live g -> (forall m, 0 <= m -> wp D Q (n - 1) (k m) (setseen g m)) ->
  wp D Q n (LoadMax k) g.
Proof. intros. eapply wp_HLoadMax with (n' := (n - 1)%nat); simpl; eauto; lia. Qed.

Lemma wp_loadgor D {A} (Q : A -> nat -> gst T -> Prop) n k g a :
  (0 < n)%nat -> md g = MAct a -> a_credit a = false -> a_join a = None ->
  (forall z, wp D Q (n - 1) (k z) (setmd g (MAct (settok a (z <? seen g))))) ->
  wp D Q n (LoadGor k) g.
Proof. intros. eapply wp_HLoadGor with (n' := (n - 1)%nat); simpl; eauto; lia. Qed.

End Conc.

Definition QT {T} : unit -> nat -> gst T -> Prop := fun _ _ g => md g = MDone.

(** Obligation of a started goroutine. *)
Inductive wpT {Gr : grain} {P T} (body : P -> cmd P T unit) (Dm : nat)
  (n : nat) (c : cmd P T unit) (g : gst T) : Prop :=
| WT : wp body (wpT body Dm) Dm QT n c g -> wpT body Dm n c g.

(** Postcondition of the caller: nothing is pending, and [Post] holds of the memory. *)
Definition QM {T A} (Post : A -> (Z -> T) -> Prop) : A -> nat -> gst T -> Prop :=
  fun r _ g => match md g with
               | MSeq | MInit => forall w, agrees g w -> Post r w
               | MFinal Pf => forall w, Pf w -> Post r w
               | _ => False
               end.
