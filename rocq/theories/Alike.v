(** * Collections whose elements compare alike

    Sort (sortyLsw.go) sees elements only through Lesswap.  Two collections whose elements compare alike
    position by position go through the same executions: a simulation, by programs of the same shape that
    hold corresponding elements. *)

From Coq Require Import List ZArith Lia Bool.
From Verif Require Import Lang Trace Scalar Typed Lsw.
Import ListNotations.
Open Scope Z_scope.
Open Scope cmd_scope.

Section Sim.
Context {P T1 T2 : Type}.
Variable V : T1 -> T2 -> Prop.

Definition sumR {S A1 A2} (RA : A1 -> A2 -> Prop) (x : S + A1) (y : S + A2) : Prop :=
  match x, y with inl s, inl s' => s = s' | inr a, inr a' => RA a a' | _, _ => False end.

(** Programs of one shape. *)
Inductive csim : forall A1 A2, (A1 -> A2 -> Prop) -> cmd P T1 A1 -> cmd P T2 A2 -> Prop :=
| cs_ret A1 A2 (RA : A1 -> A2 -> Prop) a a' : RA a a' -> csim A1 A2 RA (Ret a) (Ret a')
| cs_panic A1 A2 (RA : A1 -> A2 -> Prop) : csim A1 A2 RA Panic Panic
| cs_bind B1 B2 A1 A2 (RB : B1 -> B2 -> Prop) (RA : A1 -> A2 -> Prop) c c' k k' : csim B1 B2 RB c c' ->
    (forall b b', RB b b' -> csim A1 A2 RA (k b) (k' b')) -> csim A1 A2 RA (Bind c k) (Bind c' k')
| cs_loop S A1 A2 (RA : A1 -> A2 -> Prop) (s : S) f f' : (forall s, csim (S + A1) (S + A2) (sumR RA) (f s) (f' s)) ->
    csim A1 A2 RA (Loop s f) (Loop s f')
| cs_read A1 A2 (RA : A1 -> A2 -> Prop) i k k' : (forall v v', V v v' -> csim A1 A2 RA (k v) (k' v')) ->
    csim A1 A2 RA (Read i k) (Read i k')
| cs_write A1 A2 (RA : A1 -> A2 -> Prop) i v v' k k' : V v v' -> csim A1 A2 RA k k' -> csim A1 A2 RA (Write i v k) (Write i v' k')
| cs_local U A1 A2 (RA : A1 -> A2 -> Prop) (l : list U) c k k' : (forall l, csim A1 A2 RA (k l) (k' l)) ->
    csim A1 A2 RA (Local l c k) (Local l c k')
| cs_call A1 A2 (RA : A1 -> A2 -> Prop) p k k' : csim A1 A2 RA k k' -> csim A1 A2 RA (Call p k) (Call p k')
| cs_incall A1 A2 (RA : A1 -> A2 -> Prop) c c' k k' : csim unit unit eq c c' -> csim A1 A2 RA k k' ->
    csim A1 A2 RA (InCall c k) (InCall c' k')
| cs_fork A1 A2 (RA : A1 -> A2 -> Prop) p k k' : csim A1 A2 RA k k' -> csim A1 A2 RA (Fork p k) (Fork p k')
| cs_max A1 A2 (RA : A1 -> A2 -> Prop) k k' : (forall z, csim A1 A2 RA (k z) (k' z)) -> csim A1 A2 RA (LoadMax k) (LoadMax k')
| cs_gor A1 A2 (RA : A1 -> A2 -> Prop) k k' : (forall z, csim A1 A2 RA (k z) (k' z)) -> csim A1 A2 RA (LoadGor k) (LoadGor k')
| cs_add A1 A2 (RA : A1 -> A2 -> Prop) d k k' : (forall z, csim A1 A2 RA (k z) (k' z)) -> csim A1 A2 RA (AddGor d k) (AddGor d k')
| cs_sv A1 A2 (RA : A1 -> A2 -> Prop) k k' : csim A1 A2 RA k k' -> csim A1 A2 RA (MakeSv k) (MakeSv k')
| cs_send A1 A2 (RA : A1 -> A2 -> Prop) z k k' : csim A1 A2 RA k k' -> csim A1 A2 RA (Send z k) (Send z k')
| cs_recv A1 A2 (RA : A1 -> A2 -> Prop) k k' : (forall z, csim A1 A2 RA (k z) (k' z)) -> csim A1 A2 RA (Recv k) (Recv k').
Arguments csim {A1 A2} RA c c'.

Definition hsim {A1 A2} (RA : A1 -> A2 -> Prop) (h : head P T1 A1) (h' : head P T2 A2) : Prop :=
  match h, h' with
  | HRet a, HRet a' => RA a a'
  | HPanic, HPanic => True
  | HTau c, HTau c' => csim RA c c'
  | HRead i k, HRead i' k' => i = i' /\ forall v v', V v v' -> csim RA (k v) (k' v')
  | HWrite i v k, HWrite i' v' k' => i = i' /\ V v v' /\ csim RA k k'
  | HCall p k, HCall p' k' => p = p' /\ forall c c', csim eq c c' -> csim RA (k c) (k' c')
  | HFork p k, HFork p' k' => p = p' /\ csim RA k k'
  | HLoadMax k, HLoadMax k' | HLoadGor k, HLoadGor k' | HRecv k, HRecv k' => forall z, csim RA (k z) (k' z)
  | HAddGor d k, HAddGor d' k' => d = d' /\ forall z, csim RA (k z) (k' z)
  | HMakeSv k, HMakeSv k' => csim RA k k'
  | HSend z k, HSend z' k' => z = z' /\ csim RA k k'
  | _, _ => False
  end.

Lemma view_sim {A1 A2} (RA : A1 -> A2 -> Prop) c c' : csim RA c c' -> hsim RA (view c) (view c').
Proof.
  induction 1 as [A1 A2 RA a a' H|A1 A2 RA|B1 B2 A1 A2 RB RA c c' k k' H IH Hk IHk|S A1 A2 RA s f f' H IH|A1 A2 RA i k k' H IH
    |A1 A2 RA i v v' k k' Hv H IH|U A1 A2 RA l c k k' H IH|A1 A2 RA p k k' H IH|A1 A2 RA c c' k k' Hc IHc H IH|A1 A2 RA p k k' H IH|A1 A2 RA k k' H IH
    |A1 A2 RA k k' H IH|A1 A2 RA d k k' H IH|A1 A2 RA k k' H IH|A1 A2 RA z k k' H IH|A1 A2 RA k k' H IH]; cbn [view hsim]; auto.
  - destruct (view c), (view c'); cbn [hsim hcont] in *; try contradiction;
      try (destruct IH as [-> IH]); try (destruct IH as [IH0 IH]); repeat split; auto; intros; try (eapply cs_bind; [|exact Hk]; auto).
  - eapply cs_bind; [apply H|]. intros [s1|a1] [s2|a2] E; cbn in E; try contradiction; [subst; constructor; exact H|constructor; exact E].
  - destruct (view c) as [| | |i kk|i v kk| | | | | | | |]; cbn [hsim]; auto; try (apply cs_local; assumption).
    + destruct (lget l i); cbn [hsim]; [apply cs_local; assumption|exact I].
    + destruct (lset l i v); cbn [hsim]; [apply cs_local; assumption|exact I].
  - split; [reflexivity|]. intros. apply cs_incall; assumption.
  - destruct (view c), (view c'); cbn [hsim hcont] in *; try contradiction; auto;
      try (destruct IHc as [-> IHc]); try (destruct IHc as [IH0 IHc]); repeat split; auto; intros; try (apply cs_incall; auto).
Qed.
End Sim.
Arguments csim {P T1 T2} V {A1 A2} RA c c'.
Arguments hsim {P T1 T2} V {A1 A2} RA h h'.

Lemma csim_flip {P T1 T2} (V : T1 -> T2 -> Prop) {A1 A2} (RA : A1 -> A2 -> Prop) (c : cmd P T1 A1) (c' : cmd P T2 A2) :
  csim V RA c c' -> forall RA' : A2 -> A1 -> Prop, (forall a a', RA a a' -> RA' a' a) -> csim (fun x y => V y x) RA' c' c.
Proof.
  induction 1 as [A1 A2 RA a a' H|A1 A2 RA|B1 B2 A1 A2 RB RA c c' k k' H IH Hk IHk|S A1 A2 RA s f f' H IH|A1 A2 RA i k k' H IH
    |A1 A2 RA i v v' k k' Hv H IH|U A1 A2 RA l c k k' H IH|A1 A2 RA p k k' H IH|A1 A2 RA c c' k k' Hc IHc H IH|A1 A2 RA p k k' H IH|A1 A2 RA k k' H IH
    |A1 A2 RA k k' H IH|A1 A2 RA d k k' H IH|A1 A2 RA k k' H IH|A1 A2 RA z k k' H IH|A1 A2 RA k k' H IH]; intros RA' HR;
    try (constructor; auto; fail).
  - apply (cs_bind _ B2 B1 A2 A1 (fun y x => RB x y)); [apply IH; auto|]. intros b b' Hb. apply IHk; auto.
  - constructor. intro s0. apply IH. intros [x|x] [y|y] E; cbn in *; auto.
Qed.

Section Machine.
Context {P T1 T2 R : Type}.
Variable V : T1 -> T2 -> Prop.
Variables (body1 : P -> cmd P T1 unit) (body2 : P -> cmd P T2 unit).
Hypothesis Hbody : forall p, csim V eq (body1 p) (body2 p).
Variable Rg : Z -> Prop.

Definition shsim (s : shared T1) (s' : shared T2) : Prop :=
  ngor s = ngor s' /\ maxg s = maxg s' /\ chans s = chans s' /\ forall i, Rg i -> V (mem s i) (mem s' i).

Definition ssim (s : st P T1 R) (s' : st P T2 R) : Prop :=
  csim V eq (main s) (main s') /\ Forall2 (csim V eq) (thr s) (thr s') /\ shsim (sh s) (sh s').

Lemma access_sim {A1 A2} (RA : A1 -> A2 -> Prop) c c' : csim V RA c c' -> access (P := P) c = access c'.
Proof.
  intro H. apply view_sim in H. unfold access. destruct (view c), (view c'); cbn [hsim] in H; try contradiction; try reflexivity;
    destruct H as [-> _]; reflexivity.
Qed.

Lemma label_sim {A1 A2} (RA : A1 -> A2 -> Prop) t n c c' : csim V RA c c' -> Trace.label (P := P) t n c = Trace.label t n c'.
Proof.
  intro H. apply view_sim in H. unfold Trace.label. destruct (view c), (view c'); cbn [hsim] in H; try contradiction; try reflexivity;
    destruct H as [-> _]; reflexivity.
Qed.

Lemma local_sim {A1 A2} (RA : A1 -> A2 -> Prop) c c' s s' c1 s1 fs : csim V RA c c' -> shsim s s' ->
  (forall x, access c = Some (x, false) -> Rg x) ->
  exec_local body1 c s = Some (c1, s1, fs) ->
  exists c2 s2 fs', exec_local body2 c' s' = Some (c2, s2, fs') /\ csim V RA c1 c2 /\ shsim s1 s2 /\ Forall2 (csim V eq) fs fs'.
Proof.
  intros H (Hn & Hm & Hc & Hv) Ha He. apply view_sim in H. unfold access in Ha. unfold exec_local in *.
  assert (S0 : shsim s s') by (repeat split; auto).
  destruct (view c) eqn:E, (view c') eqn:E'; cbn [hsim] in H; try contradiction; try discriminate; injection He as <- <- <-.
  - do 3 eexists. split; [reflexivity|]. auto.
  - destruct H as [<- H]. do 3 eexists. split; [reflexivity|]. split; [|auto]. apply H, Hv. eapply Ha. reflexivity.
  - destruct H as (<- & Hw & H). do 3 eexists. split; [reflexivity|]. split; [exact H|]. split; [|constructor].
    repeat split; cbn; auto. intros j Hj. unfold upd. destruct (j =? i); [exact Hw|auto].
  - destruct H as [<- H]. do 3 eexists. split; [reflexivity|]. auto.
  - destruct H as [<- H]. do 3 eexists. split; [reflexivity|]. split; [exact H|]. split; [exact S0|]. constructor; [apply Hbody|constructor].
  - do 3 eexists. split; [reflexivity|]. rewrite <- Hm. auto.
  - do 3 eexists. split; [reflexivity|]. rewrite <- Hn. auto.
  - destruct H as [<- H]. do 3 eexists. split; [reflexivity|]. rewrite <- Hn. split; [apply H|]. split; [|constructor]. repeat split; cbn; auto.
  - do 3 eexists. split; [reflexivity|]. split; [exact H|]. split; [|constructor]. repeat split; cbn; auto. lia.
Qed.

Lemma F2_len {X Y} (Q : X -> Y -> Prop) l l' : Forall2 Q l l' -> length l = length l'.
Proof. induction 1; cbn; congruence. Qed.

Lemma F2_mid {X Y} (Q : X -> Y -> Prop) l1 x l2 l : Forall2 Q (l1 ++ x :: l2) l ->
  exists k1 y k2, l = k1 ++ y :: k2 /\ Forall2 Q l1 k1 /\ Q x y /\ Forall2 Q l2 k2 /\ length l1 = length k1.
Proof.
  intro H. apply Forall2_app_inv_l in H. destruct H as (k1 & k & H1 & H2 & ->). inversion H2 as [|? y ? k2 Hx H3]; subst.
  exists k1, y, k2. repeat split; auto. eapply F2_len. exact H1.
Qed.

Lemma access_label {A} (c : cmd P T1 A) x t n : access c = Some (x, false) -> Trace.label t n c = EvRead t x.
Proof. unfold access, Trace.label. destruct (view c); try discriminate. intro E. injection E as ->. reflexivity. Qed.

Lemma tstep_sim e s t s' : (forall x u, e = EvRead u x -> In (Some (x, false)) (accesses s) -> Rg x) -> ssim s t -> tstep body1 e s s' ->
  exists t', tstep body2 e t t' /\ ssim s' t'.
Proof.
  intros Ha (Hm & Ht & Hs) H. destruct t as [mt tt st]. cbn [main thr sh] in *.
  destruct H as [m ts s m' s' fs Hx|m l1 d l2 s d' s' fs Hx|m l1 d l2 s v k k' H1 H2|m l1 d l2 s v k k' H1 H2
    |m l1 c1 l2 c2 l3 s v k k' H1 H2|m l1 c1 l2 c2 l3 s v k k' H1 H2|m ts s k z H1|m l1 d l2 s k z H1]; cbn [main thr sh] in *.
  - edestruct (local_sim eq m mt s st) as (c2 & s2 & fs' & E & A & B & D); [exact Hm|exact Hs| |exact Hx|].
    { intros x Hw. apply (Ha x 0%nat); [apply access_label; exact Hw|]. left. exact Hw. }
    exists (St c2 (tt ++ fs') s2). split; [|split; [exact A|split; [apply Forall2_app; assumption|exact B]]].
    rewrite (label_sim _ _ _ _ _ Hm), (F2_len _ _ _ Ht). apply tstep_main. exact E.
  - destruct (F2_mid _ _ _ _ _ Ht) as (k1 & y & k2 & -> & F1 & F2 & F3 & EL).
    edestruct (local_sim eq d y s st) as (c2 & s2 & fs' & E & A & B & D); [exact F2|exact Hs| |exact Hx|].
    { intros x Hw. eapply (Ha x); [apply access_label; exact Hw|]. right. cbn [thr]. rewrite map_app. apply in_app_iff. right. left. exact Hw. }
    exists (St mt (k1 ++ c2 :: k2 ++ fs') s2). split; [|split; [exact Hm|split; [|exact B]]].
    + rewrite (label_sim _ _ _ _ _ F2), (F2_len _ _ _ Ht), EL. apply tstep_thr. exact E.
    + cbn. apply Forall2_app; [exact F1|]. constructor; [exact A|]. apply Forall2_app; assumption.
  - destruct (F2_mid _ _ _ _ _ Ht) as (k1 & y & k2 & -> & F1 & F2 & F3 & EL).
    assert (X1 := view_sim _ _ _ _ F2). assert (X2 := view_sim _ _ _ _ Hm). rewrite H1 in X1. rewrite H2 in X2.
    destruct (view y) eqn:Ey; cbn [hsim] in X1; try contradiction. destruct X1 as [<- X1].
    destruct (view mt) eqn:Em; cbn [hsim] in X2; try contradiction.
    eexists. split; [rewrite EL; eapply tstep_to_main; eassumption|]. split; [apply X2|]. split; [|exact Hs].
    cbn. apply Forall2_app; [exact F1|]. constructor; assumption.
  - destruct (F2_mid _ _ _ _ _ Ht) as (k1 & y & k2 & -> & F1 & F2 & F3 & EL).
    assert (X1 := view_sim _ _ _ _ F2). assert (X2 := view_sim _ _ _ _ Hm). rewrite H2 in X1. rewrite H1 in X2.
    destruct (view y) eqn:Ey; cbn [hsim] in X1; try contradiction.
    destruct (view mt) eqn:Em; cbn [hsim] in X2; try contradiction. destruct X2 as [<- X2].
    eexists. split; [rewrite EL; eapply tstep_from_main; eassumption|]. split; [apply X2|]. split; [|exact Hs].
    cbn. apply Forall2_app; [exact F1|]. constructor; [apply X1|assumption].
  - destruct (F2_mid _ _ _ _ _ Ht) as (k1 & y & k2' & -> & F1 & F2 & F3 & EL).
    destruct (F2_mid _ _ _ _ _ F3) as (k2 & y' & k3 & -> & G1 & G2 & G3 & EL').
    assert (X1 := view_sim _ _ _ _ F2). assert (X2 := view_sim _ _ _ _ G2). rewrite H1 in X1. rewrite H2 in X2.
    destruct (view y) eqn:Ey; cbn [hsim] in X1; try contradiction. destruct X1 as [<- X1].
    destruct (view y') eqn:Em; cbn [hsim] in X2; try contradiction.
    eexists. split; [rewrite EL, EL'; eapply tstep_thr_thr1; eassumption|]. split; [exact Hm|]. split; [|exact Hs].
    cbn. apply Forall2_app; [exact F1|]. constructor; [exact X1|]. apply Forall2_app; [exact G1|]. constructor; [apply X2|exact G3].
  - destruct (F2_mid _ _ _ _ _ Ht) as (k1 & y & k2' & -> & F1 & F2 & F3 & EL).
    destruct (F2_mid _ _ _ _ _ F3) as (k2 & y' & k3 & -> & G1 & G2 & G3 & EL').
    assert (X1 := view_sim _ _ _ _ F2). assert (X2 := view_sim _ _ _ _ G2). rewrite H1 in X1. rewrite H2 in X2.
    destruct (view y) eqn:Ey; cbn [hsim] in X1; try contradiction.
    destruct (view y') eqn:Em; cbn [hsim] in X2; try contradiction. destruct X2 as [<- X2].
    eexists. split; [rewrite EL, EL'; eapply tstep_thr_thr2; eassumption|]. split; [exact Hm|]. split; [|exact Hs].
    cbn. apply Forall2_app; [exact F1|]. constructor; [apply X1|]. apply Forall2_app; [exact G1|]. constructor; [exact X2|exact G3].
  - assert (X2 := view_sim _ _ _ _ Hm). rewrite H1 in X2. destruct (view mt) eqn:Em; cbn [hsim] in X2; try contradiction.
    eexists. split; [eapply tstep_stale_main; eassumption|]. split; [apply X2|]. split; [exact Ht|exact Hs].
  - destruct (F2_mid _ _ _ _ _ Ht) as (k1 & y & k2 & -> & F1 & F2 & F3 & EL).
    assert (X1 := view_sim _ _ _ _ F2). rewrite H1 in X1. destruct (view y) eqn:Ey; cbn [hsim] in X1; try contradiction.
    eexists. split; [rewrite EL; eapply tstep_stale_thr; eassumption|]. split; [exact Hm|]. split; [|exact Hs].
    cbn. apply Forall2_app; [exact F1|]. constructor; [apply X1|exact F3].
Qed.

Lemma estep_sim M s t s' : ssim s t -> estep M Rg s s' -> exists t', estep M Rg t t' /\ ssim s' t'.
Proof.
  intros (Hm & Ht & Hn & Hg & Hc & Hv) H. destruct t as [mt tt st]. destruct H as [m ts s mem' mg' H1 H2]. cbn [main thr sh] in *.
  exists (St mt tt (Sh (mem st) (ngor st) mg' (chans st))). split; [constructor; auto|]. split; [exact Hm|]. split; [exact Ht|].
  repeat split; cbn; auto. intros i Hi. rewrite H2 by exact Hi. auto.
Qed.

Lemma ssim_accesses s t : ssim s t -> accesses s = accesses t.
Proof.
  intros (Hm & Ht & _). unfold accesses. rewrite (access_sim _ _ _ Hm). f_equal.
  induction Ht as [|x y l l' H _ IH]; [reflexivity|]. cbn. rewrite (access_sim _ _ _ H), IH. reflexivity.
Qed.

(** Executions in which the elements stay in bounds. *)
Lemma texec_sim M tr s0 t0 s : (forall tr' s', texec body1 M Rg tr' s0 s' -> forall x w, In (Some (x, w)) (accesses s') -> Rg x) ->
  ssim s0 t0 -> texec body1 M Rg tr s0 s -> exists t, texec body2 M Rg tr t0 t /\ ssim s t.
Proof.
  intros Hb H0 H. induction H as [s|tr e s s1 s2 H IH Hs|tr s s1 s2 H IH Hs].
  - exists t0. split; [constructor|exact H0].
  - destruct (IH Hb H0) as (t & Ht & Hsim). destruct (tstep_sim e s1 t s2) as (t' & A & B); [intros x u _; eapply Hb; exact H|exact Hsim|exact Hs|].
    exists t'. split; [eapply texec_prog; eassumption|exact B].
  - destruct (IH Hb H0) as (t & Ht & Hsim). destruct (estep_sim M s1 t s2 Hsim Hs) as (t' & A & B).
    exists t'. split; [eapply texec_env; eassumption|exact B].
Qed.

(** The same, if it is the other executions that stay in bounds. *)
Lemma texec_simr M tr s0 t0 s : (forall tr' t', texec body2 M Rg tr' t0 t' -> forall x w, In (Some (x, w)) (accesses t') -> Rg x) ->
  ssim s0 t0 -> texec body1 M Rg tr s0 s -> exists t, texec body2 M Rg tr t0 t /\ ssim s t.
Proof.
  intros Hb H0 H. induction H as [s|tr e s s1 s2 H IH Hs|tr s s1 s2 H IH Hs].
  - exists t0. split; [constructor|exact H0].
  - destruct (IH H0) as (t & Ht & Hsim). destruct (tstep_sim e s1 t s2) as (t' & A & B); [|exact Hsim|exact Hs|].
    { intros x u _. rewrite (ssim_accesses _ _ Hsim). eapply Hb. exact Ht. }
    exists t'. split; [eapply texec_prog; eassumption|exact B].
  - destruct (IH H0) as (t & Ht & Hsim). destruct (estep_sim M s1 t s2 Hsim Hs) as (t' & A & B).
    exists t'. split; [eapply texec_env; eassumption|exact B].
Qed.

(** The same, for executions that read no cells but these; [Ce] are all cells of the collection. *)
Lemma texec_sime M (Ce : Z -> Prop) tr s0 t0 s : (forall x, Rg x -> Ce x) ->
  (forall tr' t', texec body2 M Ce tr' t0 t' -> forall x w, In (Some (x, w)) (accesses t') -> Ce x) -> (forall u x, In (EvRead u x) tr -> Ce x -> Rg x) ->
  ssim s0 t0 -> texec body1 M Ce tr s0 s -> exists t, texec body2 M Ce tr t0 t /\ ssim s t.
Proof.
  intros HC Hb Hr H0 H. induction H as [s|tr e s s1 s2 H IH Hs|tr s s1 s2 H IH Hs].
  - exists t0. split; [constructor|exact H0].
  - destruct (IH (fun u x Hx => Hr u x (in_or_app _ _ _ (or_introl Hx))) H0) as (t & Ht & Hsim).
    destruct (tstep_sim e s1 t s2) as (t' & A & B); [|exact Hsim|exact Hs|].
    { intros x u -> Hx. apply (Hr u); [apply in_or_app; right; left; reflexivity|]. rewrite (ssim_accesses _ _ Hsim) in Hx. eapply Hb; eassumption. }
    exists t'. split; [eapply texec_prog; eassumption|exact B].
  - destruct (IH Hr H0) as (t & Ht & Hsim). destruct Hsim as (Hm & Hth & Hn & Hg & Hc & Hv). destruct t as [mt tt st].
    destruct Hs as [m ts s' mem' mg' H1 H2]. cbn [main thr sh] in *.
    exists (St mt tt (Sh (mem st) (ngor st) mg' (chans st))). split; [eapply texec_env; [exact Ht|constructor; auto]|].
    split; [exact Hm|]. split; [exact Hth|]. repeat split; cbn; auto. intros i Hi. rewrite H2 by auto. auto.
Qed.

Lemma panic_sim {A1 A2} (RA : A1 -> A2 -> Prop) (c : cmd P T1 A1) (c' : cmd P T2 A2) : csim V RA c c' -> (view c = HPanic <-> view c' = HPanic).
Proof. intro H. apply view_sim in H. destruct (view c), (view c'); cbn [hsim] in H; try contradiction; split; intro; congruence. Qed.

Lemma ssim_panicked s t : ssim s t -> (panicked s <-> panicked t).
Proof.
  intros (Hm & Ht & _). assert (X : (exists c, In c (thr s) /\ view c = HPanic) <-> (exists c, In c (thr t) /\ view c = HPanic)).
  { induction Ht as [|x y l l' H _ IH]; [split; intros (c & [] & _)|]. assert (Hxy := panic_sim eq x y H). split; intros (c & [<-|Hc] & E).
    - exists y. split; [left; reflexivity|]. apply Hxy. exact E.
    - destruct (proj1 IH) as (d & Hd & Ed); [eauto|]. exists d. split; [right|]; assumption.
    - exists x. split; [left; reflexivity|]. apply Hxy. exact E.
    - destruct (proj2 IH) as (d & Hd & Ed); [eauto|]. exists d. split; [right|]; assumption. }
  unfold panicked. rewrite X, (panic_sim eq _ _ Hm). reflexivity.
Qed.

Lemma ssim_returned s t r : ssim s t -> (returned s r <-> returned t r).
Proof.
  intros (Hm & _). apply view_sim in Hm. unfold returned.
  destruct (view (main s)), (view (main t)); cbn [hsim] in Hm; try contradiction; split; intro H; try discriminate; congruence.
Qed.
End Machine.

(** ** sortyLsw.go *)

Section Lsw.
Context {Wd : word}.
Context {T1 T2 : Type}.
Variable V : T1 -> T2 -> Prop.
Variables (lt1 : T1 -> T1 -> bool) (lt2 : T2 -> T2 -> bool).
Hypothesis Hlt : forall x x' y y', V x x' -> V y y' -> lt1 x y = lt2 x' y'.
Variables (cap : Z) (tn : tuning) (meanI : Z -> Z -> Z).

Notation "a ~~ b" := (csim V eq a b) (at level 70).

Lemma s_cget i : csim (P := lproc) V V (cget cap i) (cget cap i).
Proof. unfold cget. destruct (_ && _); constructor. intros v v' H. constructor. exact H. Qed.

Lemma s_cset i v v' : V v v' -> cset cap i v ~~ cset cap i v'.
Proof. intro H. unfold cset. destruct (_ && _); [|constructor]. constructor; [exact H|]. constructor. reflexivity. Qed.

Lemma s_lsw i k r s : lsw lt1 cap i k r s ~~ lsw lt2 cap i k r s.
Proof.
  unfold lsw. destruct (negb _); [constructor|].
  eapply cs_bind; [apply s_cget|]. intros x x' Hx. eapply cs_bind; [apply s_cget|]. intros y y' Hy.
  rewrite (Hlt x x' y y' Hx Hy). destruct (lt2 x' y'); [|constructor; reflexivity].
  destruct (r =? s); [constructor; reflexivity|].
  eapply cs_bind; [apply s_cget|]. intros a a' Ha'. eapply cs_bind; [apply s_cget|]. intros b b' Hb'.
  eapply cs_bind; [apply s_cset; exact Ha'|]. intros _ _ _. eapply cs_bind; [apply s_cset; exact Hb'|]. intros _ _ _. constructor. reflexivity.
Qed.

Lemma s_if {A} (b : bool) (c1 c2 : cmd lproc T1 A) (c1' c2' : cmd lproc T2 A) RA : csim V RA c1 c1' -> csim V RA c2 c2' ->
  csim V RA (if b then c1 else c2) (if b then c1' else c2').
Proof. destruct b; auto. Qed.

Lemma s_bind {A B} (c : cmd lproc T1 A) (c' : cmd lproc T2 A) (k : A -> cmd lproc T1 B) (k' : A -> cmd lproc T2 B) RB : c ~~ c' -> (forall a, csim V RB (k a) (k' a)) ->
  csim V RB (Bind c k) (Bind c' k').
Proof. intros H Hk. eapply cs_bind; [exact H|]. intros b b' <-. apply Hk. Qed.

Lemma s_ret {A} (a : A) : (Ret a : cmd lproc T1 A) ~~ Ret a.
Proof. constructor. reflexivity. Qed.
Lemma s_goto {S A} (s : S) : csim (P := lproc) V (sumR (@eq A)) (Ret (inl s)) (Ret (inl s)).
Proof. constructor. reflexivity. Qed.
Lemma s_done {S A} (a : A) : csim (P := lproc) V (@sumR S _ _ (@eq A)) (Ret (inr a)) (Ret (inr a)).
Proof. constructor. reflexivity. Qed.

Ltac sim := repeat first
  [ apply s_lsw | apply s_ret | apply s_goto | apply s_done | apply s_if | apply s_bind; [|intros ?] | apply cs_loop; intros ?
  | apply cs_call | apply cs_fork | apply cs_max; intros ? | apply cs_gor; intros ? | apply cs_add; intros ? | apply cs_sv | apply cs_send | apply cs_recv; intros ?
  | match goal with |- csim _ _ (let _ := _ in _) _ => cbv zeta end
  | match goal with |- csim _ _ (match ?x with _ => _ end) _ => is_var x; destruct x end ].

Lemma s_insertion lo hi : lswInsertion lt1 cap lo hi ~~ lswInsertion lt2 cap lo hi.
Proof. unfold lswInsertion. sim. Qed.
Lemma s_samples f s l : lswSamples lt1 cap f s l ~~ lswSamples lt2 cap f s l.
Proof. unfold lswSamples. sim. Qed.
Lemma s_pivot lo hi n : lswPivot lt1 cap meanI lo hi n ~~ lswPivot lt2 cap meanI lo hi n.
Proof. unfold lswPivot. destruct (minMaxSample _ _) as [[f s] l]. cbv zeta. apply s_bind; [apply s_samples|intros ?]. sim. Qed.
Lemma s_partOne l pv h : lswPartOne lt1 cap l pv h ~~ lswPartOne lt2 cap l pv h.
Proof. unfold lswPartOne. sim. Qed.
Lemma s_partTwo lo l pv h hi : lswPartTwo lt1 cap lo l pv h hi ~~ lswPartTwo lt2 cap lo l pv h hi.
Proof. unfold lswPartTwo. sim. Qed.
Lemma s_gapLow lo r k pv : lswGapLow lt1 cap lo r k pv ~~ lswGapLow lt2 cap lo r k pv.
Proof. unfold lswGapLow. sim. Qed.
Lemma s_gapHigh hi r k pv : lswGapHigh lt1 cap hi r k pv ~~ lswGapHigh lt2 cap hi r k pv.
Proof. unfold lswGapHigh. sim. Qed.
Lemma s_partCon lo hi : lswPartCon lt1 cap meanI lo hi ~~ lswPartCon lt2 cap meanI lo hi.
Proof.
  unfold lswPartCon. apply s_bind; [apply s_pivot|intros pv]. cbv zeta. apply cs_fork. apply s_bind; [apply s_partTwo|intros r].
  apply cs_recv. intros k. apply s_if; [apply s_gapLow|apply s_gapHigh].
Qed.
Lemma s_pivotShort lo hi : lswPivotShort lt1 cap lo hi ~~ lswPivotShort lt2 cap lo hi.
Proof. unfold lswPivotShort. destruct (minMaxSample _ _) as [[f s] l]. sim. Qed.
Lemma s_gorFull : (lswGorFull : cmd lproc T1 bool) ~~ lswGorFull.
Proof. unfold lswGorFull. sim. Qed.

Lemma s_short lo hi : lswShort lt1 cap tn lo hi ~~ lswShort lt2 cap tn lo hi.
Proof.
  unfold lswShort. apply cs_loop. intros [[lo0 hi0]|[[[[lo0 hi0] l] h] no]].
  - apply s_bind; [apply s_pivotShort|intros pv]. apply s_bind; [apply s_partOne|intros l].
    destruct (lswSplit lo0 hi0 l) as [[[[[? ?] ?] ?] ?] ?]. sim.
  - apply s_bind; [apply s_insertion|intros ?]. sim.
Qed.

Lemma s_long lo hi sv : lswLong lt1 cap tn meanI lo hi sv ~~ lswLong lt2 cap tn meanI lo hi sv.
Proof.
  unfold lswLong. apply cs_loop. intros [lo0 hi0]. apply s_bind; [apply s_pivot|intros pv]. apply s_bind; [apply s_partOne|intros l].
  destruct (lswSplit lo0 hi0 l) as [[[[[? ?] ?] ?] ?] ?]. apply s_if.
  - apply s_bind; [|intros ?; sim]. apply s_if; [sim|apply s_insertion].
  - apply s_bind; [apply s_if; [apply s_gorFull|sim]|intros full]. sim.
Qed.

Lemma s_body p : lswBody lt1 cap tn meanI p ~~ lswBody lt2 cap tn meanI p.
Proof.
  destruct p; cbn [lswBody].
  - apply s_short.
  - apply s_long.
  - unfold lswGLong. sim.
  - unfold lswGPartOne. apply s_bind; [apply s_partOne|intros ?]. sim.
Qed.

Lemma s_sort n : lswSort lt1 cap tn meanI n ~~ lswSort lt2 cap tn meanI n.
Proof.
  unfold lswSort. cbv zeta. apply s_bind; [sim|intros single]. apply s_if; [sim; apply s_insertion|].
  unfold lswSortConc. apply cs_sv. apply s_bind; [|intros [lo hi]; sim].
  apply cs_loop. intros [lo hi]. apply s_bind; [apply s_partCon|intros l].
  destruct (lswSplit lo hi l) as [[[[[? ?] ?] ?] ?] ?]. apply s_bind; [sim; apply s_insertion|intros ?]. apply s_if; [sim|].
  apply s_bind; [apply s_gorFull|intros full]. sim.
Qed.
End Lsw.
