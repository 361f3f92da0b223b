(** * Programs whose memory cannot be trusted

    [erase] turns a program into one without memory: what a read delivers is chosen by the
    environment, what is written is forgotten, and an access outside [inb] is a panic.
    Every execution of a program while the environment changes any cell at any time is an
    execution of the erased program, so that what is proved of the erased program holds
    whatever the reads of the program deliver. *)

From Coq Require Import List ZArith Lia Bool.
From Verif Require Import Lang.
Import ListNotations.
Open Scope Z_scope.

Section Erase.
Context {P T : Type}.
Variable f : Z -> T.           (* numbers, chosen by the environment, as values *)
Variable inb : Z -> bool.

(** A read takes its value from a look at a variable of the environment; a write becomes
    such a look, too, without effect. *)
Fixpoint erase {A} (c : cmd P T A) {struct c} : cmd P unit A :=
  match c with
  | Ret a => Ret a
  | Panic => Panic
  | Bind c k => Bind (erase c) (fun b => erase (k b))
  | Loop s bd => Loop s (fun s => erase (bd s))
  | Read i k => if inb i then LoadMax (fun z => erase (k (f z))) else Panic
  | Write i v k => if inb i then LoadMax (fun _ => erase k) else Panic
  | Local m c k => Local m c (fun l => erase (k l))
  | Call p k => Call p (erase k)
  | InCall c k => InCall (erase c) (erase k)
  | Fork p k => Fork p (erase k)
  | LoadMax k => LoadMax (fun z => erase (k z))
  | LoadGor k => LoadGor (fun z => erase (k z))
  | AddGor d k => AddGor d (fun z => erase (k z))
  | MakeSv k => MakeSv (erase k)
  | Send v k => Send v (erase k)
  | Recv k => Recv (fun z => erase (k z))
  end.

(** The same as a relation, up to equality of the continuations at every argument. *)
Inductive er : forall {A}, cmd P T A -> cmd P unit A -> Prop :=
| er_ret A (a : A) : er (Ret a) (Ret a)
| er_panic A : er (@Panic P T A) Panic
| er_bind A B (c : cmd P T B) c' (k : B -> cmd P T A) k' : er c c' -> (forall b, er (k b) (k' b)) ->
    er (Bind c k) (Bind c' k')
| er_loop A S (s : S) (bd : S -> cmd P T (S + A)) bd' : (forall s, er (bd s) (bd' s)) ->
    er (Loop s bd) (Loop s bd')
| er_read A i (k : T -> cmd P T A) k' : inb i = true -> (forall z, er (k (f z)) (k' z)) ->
    er (Read i k) (LoadMax k')
| er_read_out A i (k : T -> cmd P T A) : inb i = false -> er (Read i k) Panic
| er_write A i v (k : cmd P T A) k' : inb i = true -> (forall z, er k (k' z)) ->
    er (Write i v k) (LoadMax k')
| er_write_out A i v (k : cmd P T A) : inb i = false -> er (Write i v k) Panic
| er_local A U (m : list U) c (k : list U -> cmd P T A) k' : (forall l, er (k l) (k' l)) ->
    er (Local m c k) (Local m c k')
| er_call A p (k : cmd P T A) k' : er k k' -> er (Call p k) (Call p k')
| er_incall A c c' (k : cmd P T A) k' : er c c' -> er k k' -> er (InCall c k) (InCall c' k')
| er_fork A p (k : cmd P T A) k' : er k k' -> er (Fork p k) (Fork p k')
| er_loadmax A (k : Z -> cmd P T A) k' : (forall z, er (k z) (k' z)) -> er (LoadMax k) (LoadMax k')
| er_loadgor A (k : Z -> cmd P T A) k' : (forall z, er (k z) (k' z)) -> er (LoadGor k) (LoadGor k')
| er_addgor A d (k : Z -> cmd P T A) k' : (forall z, er (k z) (k' z)) -> er (AddGor d k) (AddGor d k')
| er_makesv A (k : cmd P T A) k' : er k k' -> er (MakeSv k) (MakeSv k')
| er_send A v (k : cmd P T A) k' : er k k' -> er (Send v k) (Send v k')
| er_recv A (k : Z -> cmd P T A) k' : (forall z, er (k z) (k' z)) -> er (Recv k) (Recv k').

(** The next action of an erased program. *)
Definition hrel {A} (h : head P T A) (h' : head P unit A) : Prop :=
  match h with
  | HRet a => h' = HRet a
  | HPanic => h' = HPanic
  | HTau c => exists c', h' = HTau c' /\ er c c'
  | HRead i k => (inb i = true /\ exists k', h' = HLoadMax k' /\ forall z, er (k (f z)) (k' z)) \/
      (inb i = false /\ h' = HPanic)
  | HWrite i v k => (inb i = true /\ exists k', h' = HLoadMax k' /\ forall z, er k (k' z)) \/
      (inb i = false /\ h' = HPanic)
  | HCall p k => exists k', h' = HCall p k' /\ forall b b', er b b' -> er (k b) (k' b')
  | HFork p k => exists k', h' = HFork p k' /\ er k k'
  | HLoadMax k => exists k', h' = HLoadMax k' /\ forall z, er (k z) (k' z)
  | HLoadGor k => exists k', h' = HLoadGor k' /\ forall z, er (k z) (k' z)
  | HAddGor d k => exists k', h' = HAddGor d k' /\ forall z, er (k z) (k' z)
  | HMakeSv k => exists k', h' = HMakeSv k' /\ er k k'
  | HSend v k => exists k', h' = HSend v k' /\ er k k'
  | HRecv k => exists k', h' = HRecv k' /\ forall z, er (k z) (k' z)
  end.

Lemma hrel_ctx {A B} (ctx : cmd P T A -> cmd P T B) (ctx' : cmd P unit A -> cmd P unit B) F F' h h' :
  (forall c c', er c c' -> er (ctx c) (ctx' c')) -> (forall a, hrel (F a) (F' a)) -> hrel h h' ->
  hrel (match (fun x => x) h with HRet a => F a | h => hcont ctx h end)
       (match (fun x => x) h' with HRet a => F' a | h => hcont ctx' h end).
Proof.
  intros HC HF H. destruct h; cbn [hrel] in H.
  1:{ rewrite H. apply HF. }
  1:{ rewrite H. reflexivity. }
  all: try (destruct H as (k' & -> & H); cbn; eexists; split; [reflexivity|]; cbv beta; auto; fail).
  all: destruct H as [[E (k' & -> & H)]|[E ->]]; [left|right]; cbn; [|auto]; (split; [exact E|]); eexists;
    (split; [reflexivity|]); cbv beta; auto.
Qed.

Lemma view_er {A} (c : cmd P T A) c' : er c c' -> hrel (view c) (view c').
Proof.
  induction 1; cbn [view]; try (cbn [hrel]; eauto; fail).
  - apply (hrel_ctx (fun c => Bind c k) (fun c => Bind c k') (fun a => view (k a)) (fun a => view (k' a)) (view c) (view c')); [intros; constructor; auto|auto|exact IHer].
  - cbn [hrel]. eexists. split; [reflexivity|]. constructor; [auto|]. intros [s'|a]; constructor; auto.
  - (* Local *)
    destruct (view c) eqn:E; cbn [hrel]; try reflexivity.
    + eauto.
    + eexists. split; [reflexivity|]. constructor. auto.
    + destruct (lget m i); cbn; [|reflexivity]. eexists. split; [reflexivity|]. constructor. auto.
    + destruct (lset m i v); cbn; [|reflexivity]. eexists. split; [reflexivity|]. constructor. auto.
  - cbn [hrel]. eexists. split; [reflexivity|]. intros. constructor; auto.
  - apply (hrel_ctx (fun c => InCall c k) (fun c => InCall c k') (fun _ => HTau k) (fun _ => HTau k') (view c) (view c')); [intros; constructor; auto| |exact IHer1].
    intros []. cbn. eauto.
Qed.

Lemma er_depth {A} (c : cmd P T A) c' : er c c' -> (depth c <= depth c')%nat.
Proof. induction 1; cbn [depth]; lia. Qed.

Ltac heads H := destruct H as [(?E & ?k' & ?E' & ?H)|(?E & ?E')] || destruct H as (?k' & ?E' & ?H) || idtac.

(** What a goroutine is about to do shows in the erased program. *)
Lemma er_ret_inv {A} (c : cmd P T A) c' a : er c c' -> (view c' = HRet a <-> view c = HRet a).
Proof.
  intro H. apply view_er in H. destruct (view c); cbn [hrel] in H; heads H; split; intro; congruence.
Qed.

Lemma er_access {A} (c : cmd P T A) c' x w : er c c' -> access c = Some (x, w) -> inb x = false ->
  view c' = HPanic.
Proof.
  intros H E Hx. apply view_er in H. unfold access in E. destruct (view c); cbn [hrel] in H; try discriminate;
    inversion E; subst; heads H; congruence.
Qed.

Lemma er_exiting {A} (c : cmd P T A) c' : er c c' -> exiting c' -> exiting c.
Proof.
  intros H0 H. revert c H0. induction H as [c' a Hv|c' c1 Hv _ IH]; intros c H.
  - eapply exiting_ret. apply (er_ret_inv _ _ _ H). exact Hv.
  - apply view_er in H. destruct (view c) eqn:E; cbn [hrel] in H; heads H; try congruence.
    eapply exiting_tau; [exact E|]. apply IH. congruence.
Qed.

Lemma er_quiet {A} (c : cmd P T A) : quiet c -> forall c', er c c' -> quiet c'.
Proof.
  induction 1 as [c a Hv|c c1 Hv _ IH|c v k Hv _ IH|c k Hv _ IH]; intros c' H; apply view_er in H;
    rewrite Hv in H; cbn [hrel] in H.
  - eapply quiet_ret; exact H.
  - destruct H as (k' & E & H). eapply quiet_tau; [exact E|apply IH; exact H].
  - destruct H as (k' & E & H). eapply quiet_send; [exact E|apply IH; exact H].
  - destruct H as (k' & E & H). eapply quiet_recv; [exact E|intro v; apply (IH v); apply H].
Qed.

Lemma quiet_er {A} (c' : cmd P unit A) : quiet c' -> forall c, er c c' -> quiet c.
Proof.
  induction 1 as [c' a Hv|c' c1 Hv _ IH|c' v k Hv _ IH|c' k Hv _ IH]; intros c H; assert (H' := H); apply view_er in H'.
  - eapply quiet_ret. apply (er_ret_inv _ _ _ H). exact Hv.
  - destruct (view c) eqn:E; cbn [hrel] in H'; heads H'; try congruence.
    eapply quiet_tau; [exact E|]. apply IH. congruence.
  - destruct (view c) eqn:E; cbn [hrel] in H'; heads H'; try congruence.
    rewrite Hv in E'. injection E' as <- <-. eapply quiet_send; [exact E|]. auto.
  - destruct (view c) eqn:E; cbn [hrel] in H'; heads H'; try congruence.
    rewrite Hv in E'. injection E' as <-. eapply quiet_recv; [exact E|]. intro v. apply (IH v). match goal with X : forall z, er _ _ |- _ => apply X end.
Qed.

Lemma er_send_inv {A} (c : cmd P T A) c' v k' : er c c' -> view c' = HSend v k' -> exists k, view c = HSend v k.
Proof.
  intros H E. apply view_er in H. destruct (view c); cbn [hrel] in H; heads H; try congruence.
  exists k. congruence.
Qed.

Lemma er_recv_inv {A} (c : cmd P T A) c' k' : er c c' -> view c' = HRecv k' -> exists k, view c = HRecv k.
Proof.
  intros H E. apply view_er in H. destruct (view c); cbn [hrel] in H; heads H; try congruence. eauto.
Qed.

(** ** Executions *)

Variable body : P -> cmd P T unit.
Variable ebody : P -> cmd P unit unit.
Hypothesis Hbody : forall p, er (body p) (ebody p).
Context {R : Type}.

Definition srel (s : st P T R) (s' : st P unit R) : Prop :=
  er (main s) (main s') /\ Forall2 er (thr s) (thr s') /\
  ngor (sh s') = ngor (sh s) /\ maxg (sh s') = maxg (sh s) /\ chans (sh s') = chans (sh s).

(** Whoever may go on in the erased program may do so in the program. *)
Lemma er_can {A} (c : cmd P T A) c' s s' x : er c c' -> exec_local ebody c' s' = Some x ->
  exists y, exec_local body c s = Some y.
Proof.
  unfold exec_local. intros H E. apply view_er in H. destruct (view c); cbn [hrel] in H; try (eexists; reflexivity);
    heads H; rewrite ?E', ?H in E; discriminate.
Qed.

Lemma forall2_mid {X Y} (Q : X -> Y -> Prop) l l1 c l2 : Forall2 Q l (l1 ++ c :: l2) ->
  exists m1 x m2, l = m1 ++ x :: m2 /\ Forall2 Q m1 l1 /\ Q x c /\ Forall2 Q m2 l2.
Proof.
  intro H. apply Forall2_app_inv_r in H. destruct H as (m1 & m2' & H1 & H2 & ->).
  inversion H2; subst. eauto 8.
Qed.

Lemma mid_forall2 {X Y} (Q : X -> Y -> Prop) m1 x m2 l' : Forall2 Q (m1 ++ x :: m2) l' ->
  exists l1 c l2, l' = l1 ++ c :: l2 /\ Forall2 Q m1 l1 /\ Q x c /\ Forall2 Q m2 l2.
Proof.
  intro H. apply Forall2_app_inv_l in H. destruct H as (l1 & l2' & H1 & H2 & ->).
  inversion H2; subst. eauto 8.
Qed.

Lemma srel_step s s' s1 : srel s s' -> pstep ebody s' s1 -> exists s2, pstep body s s2.
Proof.
  destruct s as [m ts sh0]. intros (Hm & Ht & _) H. cbn [main thr sh] in *.
  inversion H as [sa sb H1|m1 ts1 sa k z Hv|m1 l1 c l2 sa k z Hv]; subst; cbn [main thr] in *.
  - inversion H1 as [m1 ts1 sa m' sa' fs He|m1 l1 c l2 sa c' sa' fs He|m1 l1 c l2 sa v k k' Hv Hv'
      |m1 l1 c l2 sa v k k' Hv Hv'|m1 l1 c1 l2 c2 l3 sa v k k' Hv Hv'|m1 l1 c1 l2 c2 l3 sa v k k' Hv Hv']; subst; cbn [main thr] in *.
    + destruct (er_can _ _ sh0 _ _ Hm He) as ([[y1 y2] y3] & Hy). eexists. apply step_now, step_main. exact Hy.
    + apply forall2_mid in Ht. destruct Ht as (a1 & x & a2 & -> & _ & Hx & _).
      destruct (er_can _ _ sh0 _ _ Hx He) as ([[y1 y2] y3] & Hy). eexists. apply step_now, step_thr. exact Hy.
    + apply forall2_mid in Ht. destruct Ht as (a1 & x & a2 & -> & _ & Hx & _).
      destruct (er_send_inv _ _ _ _ Hx Hv) as (k1 & E1). destruct (er_recv_inv _ _ _ Hm Hv') as (k2 & E2).
      eexists. apply step_now. eapply step_to_main; eassumption.
    + apply forall2_mid in Ht. destruct Ht as (a1 & x & a2 & -> & _ & Hx & _).
      destruct (er_send_inv _ _ _ _ Hm Hv) as (k1 & E1). destruct (er_recv_inv _ _ _ Hx Hv') as (k2 & E2).
      eexists. apply step_now. eapply step_from_main; eassumption.
    + apply forall2_mid in Ht. destruct Ht as (a1 & x & a2 & -> & _ & Hx & Ht).
      apply forall2_mid in Ht. destruct Ht as (a3 & x' & a4 & -> & _ & Hx' & _).
      destruct (er_send_inv _ _ _ _ Hx Hv) as (k1 & E1). destruct (er_recv_inv _ _ _ Hx' Hv') as (k2 & E2).
      eexists. apply step_now. eapply step_thr_thr1; eassumption.
    + apply forall2_mid in Ht. destruct Ht as (a1 & x & a2 & -> & _ & Hx & Ht).
      apply forall2_mid in Ht. destruct Ht as (a3 & x' & a4 & -> & _ & Hx' & _).
      destruct (er_send_inv _ _ _ _ Hx' Hv') as (k1 & E1). destruct (er_recv_inv _ _ _ Hx Hv) as (k2 & E2).
      eexists. apply step_now. eapply step_thr_thr2; eassumption.
  - destruct (er_can m (m1) sh0 (Sh (fun _ => tt) 0 0 0) (k 0, Sh (fun _ => tt) 0 0 0, []) Hm) as ([[y1 y2] y3] & Hy).
    { unfold exec_local. rewrite Hv. reflexivity. }
    eexists. apply step_now, step_main. exact Hy.
  - apply forall2_mid in Ht. destruct Ht as (a1 & x & a2 & -> & _ & Hx & _).
    destruct (er_can x c sh0 (Sh (fun _ => tt) 0 0 0) (k 0, Sh (fun _ => tt) 0 0 0, []) Hx) as ([[y1 y2] y3] & Hy).
    { unfold exec_local. rewrite Hv. reflexivity. }
    eexists. apply step_now, step_thr. exact Hy.
Qed.

(** One step of a goroutine; [z] is what the environment has to put into its variable. *)
Definition reads {A} (c : cmd P T A) (s : shared T) (z : Z) : Prop :=
  match view c with
  | HRead i _ => f z = mem s i
  | _ => z = maxg s
  end.

Lemma er_exec {A} (c : cmd P T A) c1 s c' s' fs z m1 : er c c1 ->
  exec_local body c s = Some (c', s', fs) -> reads c s z -> view c1 <> HPanic ->
  maxg s' = maxg s /\
  exists c2 fs2 m2, exec_local ebody c1 (Sh m1 (ngor s) z (chans s)) = Some (c2, Sh m2 (ngor s') z (chans s'), fs2) /\
    er c' c2 /\ Forall2 er fs fs2.
Proof.
  intros H E Hz Hn. apply view_er in H. unfold exec_local, reads in *.
  destruct (view c); cbn [hrel] in H; try discriminate; heads H; try congruence; rewrite ?E'; inversion E; subst;
    (split; [reflexivity|]); do 3 eexists; (split; [reflexivity|]); (split; [|repeat constructor]); cbn; auto.
  - rewrite <- Hz. auto.
Qed.

End Erase.

Lemma er_erase {P T A} (c : cmd P T A) : forall f inb, er f inb c (erase f inb c).
Proof.
  induction c; intros f inb; cbn [erase]; try (constructor; auto; fail).
  - destruct (inb i) eqn:E; constructor; auto.
  - destruct (inb i) eqn:E; constructor; auto.
Qed.

(** The value the next step of a goroutine reads from the memory, if any. *)
Definition takes {P T A} (c : cmd P T A) (s : shared T) : list T :=
  match view c with HRead i _ => [mem s i] | _ => [] end.

Section Simulation.
Context {P T R : Type}.
Variable inb : Z -> bool.
Variable body : P -> cmd P T unit.

(** Every execution, whatever the environment does to the memory, is one of the erased
    program, for every way [f] to choose the values that were read. *)
Theorem simulation M n (s0 s : st P T R) : exec body M (fun _ => False) n s0 s -> 0 <= maxg (sh s0) <= M ->
  0 <= maxg (sh s) <= M /\
  exists L, forall f M' s0', M <= M' -> (forall x, In x L -> exists z, 0 <= z <= M' /\ f z = x) ->
    forall Rg,
    srel f inb s0 s0' -> (forall k s', exec (fun p => erase f inb (body p)) M' Rg k s0' s' -> ~ panicked s') ->
    exists s', exec (fun p => erase f inb (body p)) M' Rg n s0' s' /\ srel f inb s s'.
Proof.
  intros H Hm0. induction H as [s|n s sa sb H IH Hp|n s sa sb H IH He].
  - split; [exact Hm0|]. exists []. intros. exists s0'. split; [constructor|assumption].
  - destruct (IH Hm0) as (Hma & L & HL). clear IH.
    (* a step of one goroutine without communication *)
    assert (Hone : forall A (c : cmd P T A) c1 sh0 c' sh1 fs f M' m1,
      M <= M' -> 0 <= maxg sh0 <= M -> (forall x, In x (takes c sh0) -> exists z, 0 <= z <= M' /\ f z = x) ->
      er f inb c c1 -> exec_local body c sh0 = Some (c', sh1, fs) -> view c1 <> HPanic ->
      maxg sh1 = maxg sh0 /\ exists z c2 fs2 m2, 0 <= z <= M' /\
        exec_local (fun p => erase f inb (body p)) c1 (Sh m1 (ngor sh0) z (chans sh0))
          = Some (c2, Sh m2 (ngor sh1) z (chans sh1), fs2) /\
        er f inb c' c2 /\ Forall2 (fun a b => er f inb a b) fs fs2).
    { intros A c c1 sh0 c' sh1 fs f M' m1 HM Hmg Hx Her Hex Hn.
      assert (Hz : exists z, 0 <= z <= M' /\ reads f c sh0 z).
      { unfold takes in Hx. unfold reads. destruct (view c); try (exists (maxg sh0); split; [lia|reflexivity]).
        destruct (Hx _ (or_introl eq_refl)) as (z & Hz & E). exists z. auto. }
      destruct Hz as (z & Hz & Hr).
      destruct (er_exec f inb body _ (fun p => er_erase (body p) f inb) c c1 sh0 c' sh1 fs z m1 Her Hex Hr Hn)
        as (E & c2 & fs2 & m2 & Ex & E1 & E2).
      split; [exact E|]. exists z, c2, fs2, m2. auto. }
    inversion Hp as [s1 s2 Hi|m ts sh0 k z Hv|m l1 c l2 sh0 k z Hv]; subst.
    + inversion Hi as [m ts sh0 m' sh1 fs Hx|m l1 c l2 sh0 c' sh1 fs Hx|m l1 c l2 sh0 v k k' Hv Hv'
        |m l1 c l2 sh0 v k k' Hv Hv'|m l1 c1 l2 c2 l3 sh0 v k k' Hv Hv'|m l1 c1 l2 c2 l3 sh0 v k k' Hv Hv']; subst; cbn [sh] in *.
      * (* the caller *)
        split; [unfold exec_local in Hx; destruct (view m); inversion Hx; subst; exact Hma|].
        exists (takes m sh0 ++ L). intros f M' s0' HM Hf Rg Hs Hnp.
        destruct (HL f M' s0' HM ltac:(intros; apply Hf, in_or_app; auto) Rg Hs Hnp) as (sa' & Hex & Hsr).
        destruct sa' as [m1 ts1 sh1']. destruct Hsr as (S1 & S2 & S3 & S4 & S5). cbn [main thr sh] in *.
        assert (Hn : view m1 <> HPanic) by (intro E; apply (Hnp _ _ Hex); left; exact E).
        destruct (Hone _ m m1 sh0 m' sh1 fs f M' (mem sh1') HM Hma ltac:(intros; apply Hf, in_or_app; auto) S1 Hx Hn)
          as (Em & z & c2 & fs2 & m2 & Hz & Ex & E1 & E2).
        eexists. split.
        -- eapply exec_env; [eapply exec_prog; [eapply exec_env; [exact Hex|]|apply step_now, step_main]|].
           ++ apply (env_step M' Rg m1 ts1 sh1' (mem sh1') z); [exact Hz|reflexivity].
           ++ rewrite S3, S5. exact Ex.
           ++ apply (env_step M' Rg) with (mem' := m2) (mg' := maxg sh0); [lia|reflexivity].
        -- split; [exact E1|]. split; [apply Forall2_app; assumption|]. cbn. auto.
      * (* a goroutine *)
        split; [unfold exec_local in Hx; destruct (view c); inversion Hx; subst; exact Hma|].
        exists (takes c sh0 ++ L). intros f M' s0' HM Hf Rg Hs Hnp.
        destruct (HL f M' s0' HM ltac:(intros; apply Hf, in_or_app; auto) Rg Hs Hnp) as (sa' & Hex & Hsr).
        destruct sa' as [m1 ts1 sh1']. destruct Hsr as (S1 & S2 & S3 & S4 & S5). cbn [main thr sh] in *.
        apply mid_forall2 in S2. destruct S2 as (a1 & c1 & a2 & -> & T1 & T2 & T3).
        assert (Hn : view c1 <> HPanic).
        { intro E. apply (Hnp _ _ Hex). right. exists c1. split; [apply in_elt|exact E]. }
        destruct (Hone _ c c1 sh0 c' sh1 fs f M' (mem sh1') HM Hma ltac:(intros; apply Hf, in_or_app; auto) T2 Hx Hn)
          as (Em & z & c2 & fs2 & m2 & Hz & Ex & E1 & E2).
        eexists. split.
        -- eapply exec_env; [eapply exec_prog; [eapply exec_env; [exact Hex|]|apply step_now, step_thr]|].
           ++ apply (env_step M' Rg m1 _ sh1' (mem sh1') z); [exact Hz|reflexivity].
           ++ rewrite S3, S5. exact Ex.
           ++ apply (env_step M' Rg) with (mem' := m2) (mg' := maxg sh0); [lia|reflexivity].
        -- split; [exact S1|]. split; [|cbn; auto]. cbn. apply Forall2_app; [exact T1|].
           constructor; [exact E1|]. apply Forall2_app; assumption.
      * split; [exact Hma|]. exists L. intros f M' s0' HM Hf Rg Hs Hnp.
        destruct (HL f M' s0' HM Hf Rg Hs Hnp) as (sa' & Hex & Hsr).
        destruct sa' as [m1 ts1 sh1']. destruct Hsr as (S1 & S2 & S3). cbn [main thr sh] in *.
        apply mid_forall2 in S2. destruct S2 as (a1 & c1 & a2 & -> & T1 & T2 & T3).
        apply view_er in T2, S1. rewrite Hv in T2. rewrite Hv' in S1. cbn in T2, S1.
        destruct T2 as (q & Q1 & Q2). destruct S1 as (q' & Q1' & Q2').
        eexists. split; [eapply exec_prog; [exact Hex|]; eapply step_now, step_to_main; eassumption|].
        split; [apply Q2'|]. split; [|exact S3]. cbn. apply Forall2_app; [exact T1|]. constructor; assumption.
      * split; [exact Hma|]. exists L. intros f M' s0' HM Hf Rg Hs Hnp.
        destruct (HL f M' s0' HM Hf Rg Hs Hnp) as (sa' & Hex & Hsr).
        destruct sa' as [m1 ts1 sh1']. destruct Hsr as (S1 & S2 & S3). cbn [main thr sh] in *.
        apply mid_forall2 in S2. destruct S2 as (a1 & c1 & a2 & -> & T1 & T2 & T3).
        apply view_er in T2, S1. rewrite Hv' in T2. rewrite Hv in S1. cbn in T2, S1.
        destruct T2 as (q & Q1 & Q2). destruct S1 as (q' & Q1' & Q2').
        eexists. split; [eapply exec_prog; [exact Hex|]; eapply step_now, step_from_main; eassumption|].
        split; [apply Q2'|]. split; [|exact S3]. cbn. apply Forall2_app; [exact T1|]. constructor; auto.
      * split; [exact Hma|]. exists L. intros f M' s0' HM Hf Rg Hs Hnp.
        destruct (HL f M' s0' HM Hf Rg Hs Hnp) as (sa' & Hex & Hsr).
        destruct sa' as [m1 ts1 sh1']. destruct Hsr as (S1 & S2 & S3). cbn [main thr sh] in *.
        apply mid_forall2 in S2. destruct S2 as (a1 & d1 & a2 & -> & T1 & T2 & T3).
        apply mid_forall2 in T3. destruct T3 as (a3 & d2 & a4 & -> & T3 & T4 & T5).
        apply view_er in T2, T4. rewrite Hv in T2. rewrite Hv' in T4. cbn in T2, T4.
        destruct T2 as (q & Q1 & Q2). destruct T4 as (q' & Q1' & Q2').
        eexists. split; [eapply exec_prog; [exact Hex|]; eapply step_now, step_thr_thr1; eassumption|].
        split; [exact S1|]. split; [|exact S3]. cbn. apply Forall2_app; [exact T1|]. constructor; [assumption|].
        apply Forall2_app; [exact T3|]. constructor; auto.
      * split; [exact Hma|]. exists L. intros f M' s0' HM Hf Rg Hs Hnp.
        destruct (HL f M' s0' HM Hf Rg Hs Hnp) as (sa' & Hex & Hsr).
        destruct sa' as [m1 ts1 sh1']. destruct Hsr as (S1 & S2 & S3). cbn [main thr sh] in *.
        apply mid_forall2 in S2. destruct S2 as (a1 & d1 & a2 & -> & T1 & T2 & T3).
        apply mid_forall2 in T3. destruct T3 as (a3 & d2 & a4 & -> & T3 & T4 & T5).
        apply view_er in T2, T4. rewrite Hv in T2. rewrite Hv' in T4. cbn in T2, T4.
        destruct T2 as (q & Q1 & Q2). destruct T4 as (q' & Q1' & Q2').
        eexists. split; [eapply exec_prog; [exact Hex|]; eapply step_now, step_thr_thr2; eassumption|].
        split; [exact S1|]. split; [|exact S3]. cbn. apply Forall2_app; [exact T1|]. constructor; [auto|].
        apply Forall2_app; [exact T3|]. constructor; auto.
    + split; [exact Hma|]. exists L. intros f M' s0' HM Hf Rg Hs Hnp.
      destruct (HL f M' s0' HM Hf Rg Hs Hnp) as (sa' & Hex & Hsr).
      destruct sa' as [m1 ts1 sh1']. destruct Hsr as (S1 & S2 & S3). cbn [main thr sh] in *.
      apply view_er in S1. rewrite Hv in S1. cbn in S1. destruct S1 as (q & Q1 & Q2).
      eexists. split; [eapply exec_prog; [exact Hex|]; apply step_stale_main with (z := z); exact Q1|].
      split; [apply Q2|]. split; [exact S2|exact S3].
    + split; [exact Hma|]. exists L. intros f M' s0' HM Hf Rg Hs Hnp.
      destruct (HL f M' s0' HM Hf Rg Hs Hnp) as (sa' & Hex & Hsr).
      destruct sa' as [m1 ts1 sh1']. destruct Hsr as (S1 & S2 & S3). cbn [main thr sh] in *.
      apply mid_forall2 in S2. destruct S2 as (a1 & c1 & a2 & -> & T1 & T2 & T3).
      apply view_er in T2. rewrite Hv in T2. cbn in T2. destruct T2 as (q & Q1 & Q2).
      eexists. split; [eapply exec_prog; [exact Hex|]; apply step_stale_thr with (z := z); exact Q1|].
      split; [exact S1|]. split; [|exact S3]. cbn. apply Forall2_app; [exact T1|]. constructor; auto.
  - destruct (IH Hm0) as (Hma & L & HL). clear IH. inversion He as [m ts sh0 mem' mg' Hmg Hmem]; subst. cbn [sh maxg] in *.
    split; [exact Hmg|]. exists L. intros f M' s0' HM Hf Rg Hs Hnp.
    destruct (HL f M' s0' HM Hf Rg Hs Hnp) as (sa' & Hex & Hsr).
    destruct sa' as [m1 ts1 sh1']. destruct Hsr as (S1 & S2 & S3 & S4 & S5). cbn [main thr sh] in *.
    eexists. split; [eapply exec_env; [exact Hex|]; apply (env_step M' Rg) with (mem' := mem sh1') (mg' := mg'); [lia|reflexivity]|].
    split; [exact S1|]. split; [exact S2|]. cbn. auto.
Qed.

End Simulation.
