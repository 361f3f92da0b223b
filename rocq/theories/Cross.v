(** * Programs of one shape over different keys

    As in [Alike.v], but the pivots too may differ: two instances of the code of [Typed.v] with different types of keys, which
    answer the comparisons among the elements present alike. *)

From Coq Require Import List ZArith Lia Bool Permutation SpecFloat.
From Verif Require Import Lang Scalar Kinds Typed Trace Spec Calls Oracle SeqLogic ConcLogic SafeLogic SafeAdequacy Base SeqOps TypedShort TypedLong TypedSort AnySort Kinds Spec Lsw KindsFacts TypedApi Guarantee TopFacts TraceFacts OracleTyped AlikeTyped.
Import ListNotations.
Open Scope Z_scope.
Open Scope cmd_scope.

Section Sim.
Context {P1 P2 : Type}.
Variable RP : P1 -> P2 -> Prop.

Definition sum2 {S1 S2 A1 A2} (RS : S1 -> S2 -> Prop) (RA : A1 -> A2 -> Prop) (x : S1 + A1) (y : S2 + A2) : Prop :=
  match x, y with inl s, inl s' => RS s s' | inr a, inr a' => RA a a' | _, _ => False end.

Inductive xsim : forall T1 T2 (V : T1 -> T2 -> Prop) A1 A2 (RA : A1 -> A2 -> Prop), cmd P1 T1 A1 -> cmd P2 T2 A2 -> Prop :=
| xs_ret T1 T2 V A1 A2 (RA : A1 -> A2 -> Prop) a a' : RA a a' -> xsim T1 T2 V A1 A2 RA (Ret a) (Ret a')
| xs_panic T1 T2 V A1 A2 (RA : A1 -> A2 -> Prop) : xsim T1 T2 V A1 A2 RA Panic Panic
| xs_bind T1 T2 V B1 B2 A1 A2 (RB : B1 -> B2 -> Prop) (RA : A1 -> A2 -> Prop) c c' k k' : xsim T1 T2 V B1 B2 RB c c' ->
    (forall b b', RB b b' -> xsim T1 T2 V A1 A2 RA (k b) (k' b')) -> xsim T1 T2 V A1 A2 RA (Bind c k) (Bind c' k')
| xs_loop T1 T2 V S1 S2 (RS : S1 -> S2 -> Prop) A1 A2 (RA : A1 -> A2 -> Prop) s s' f f' : RS s s' ->
    (forall s s', RS s s' -> xsim T1 T2 V (S1 + A1) (S2 + A2) (sum2 RS RA) (f s) (f' s')) ->
    xsim T1 T2 V A1 A2 RA (Loop s f) (Loop s' f')
| xs_read T1 T2 (V : T1 -> T2 -> Prop) A1 A2 (RA : A1 -> A2 -> Prop) i k k' : (forall v v', V v v' -> xsim T1 T2 V A1 A2 RA (k v) (k' v')) ->
    xsim T1 T2 V A1 A2 RA (Read i k) (Read i k')
| xs_write T1 T2 (V : T1 -> T2 -> Prop) A1 A2 (RA : A1 -> A2 -> Prop) i v v' k k' : V v v' -> xsim T1 T2 V A1 A2 RA k k' ->
    xsim T1 T2 V A1 A2 RA (Write i v k) (Write i v' k')
| xs_local T1 T2 V U1 U2 (VU : U1 -> U2 -> Prop) A1 A2 (RA : A1 -> A2 -> Prop) l l' c c' k k' : Forall2 VU l l' -> xsim U1 U2 VU unit unit eq c c' ->
    (forall l l', Forall2 VU l l' -> xsim T1 T2 V A1 A2 RA (k l) (k' l')) ->
    xsim T1 T2 V A1 A2 RA (Local l c k) (Local l' c' k')
| xs_call T1 T2 V A1 A2 (RA : A1 -> A2 -> Prop) p p' k k' : RP p p' -> xsim T1 T2 V A1 A2 RA k k' -> xsim T1 T2 V A1 A2 RA (Lang.Call p k) (Lang.Call p' k')
| xs_incall T1 T2 V A1 A2 (RA : A1 -> A2 -> Prop) c c' k k' : xsim T1 T2 V unit unit eq c c' -> xsim T1 T2 V A1 A2 RA k k' ->
    xsim T1 T2 V A1 A2 RA (InCall c k) (InCall c' k')
| xs_fork T1 T2 V A1 A2 (RA : A1 -> A2 -> Prop) p p' k k' : RP p p' -> xsim T1 T2 V A1 A2 RA k k' -> xsim T1 T2 V A1 A2 RA (Fork p k) (Fork p' k')
| xs_max T1 T2 V A1 A2 (RA : A1 -> A2 -> Prop) k k' : (forall z, xsim T1 T2 V A1 A2 RA (k z) (k' z)) -> xsim T1 T2 V A1 A2 RA (LoadMax k) (LoadMax k')
| xs_gor T1 T2 V A1 A2 (RA : A1 -> A2 -> Prop) k k' : (forall z, xsim T1 T2 V A1 A2 RA (k z) (k' z)) -> xsim T1 T2 V A1 A2 RA (LoadGor k) (LoadGor k')
| xs_add T1 T2 V A1 A2 (RA : A1 -> A2 -> Prop) d k k' : (forall z, xsim T1 T2 V A1 A2 RA (k z) (k' z)) -> xsim T1 T2 V A1 A2 RA (AddGor d k) (AddGor d k')
| xs_sv T1 T2 V A1 A2 (RA : A1 -> A2 -> Prop) k k' : xsim T1 T2 V A1 A2 RA k k' -> xsim T1 T2 V A1 A2 RA (MakeSv k) (MakeSv k')
| xs_send T1 T2 V A1 A2 (RA : A1 -> A2 -> Prop) z k k' : xsim T1 T2 V A1 A2 RA k k' -> xsim T1 T2 V A1 A2 RA (Send z k) (Send z k')
| xs_recv T1 T2 V A1 A2 (RA : A1 -> A2 -> Prop) k k' : (forall z, xsim T1 T2 V A1 A2 RA (k z) (k' z)) -> xsim T1 T2 V A1 A2 RA (Recv k) (Recv k').
Arguments xsim {T1 T2} V {A1 A2} RA c c'.

Definition xhsim {T1 T2} (V : T1 -> T2 -> Prop) {A1 A2} (RA : A1 -> A2 -> Prop) (h : head P1 T1 A1) (h' : head P2 T2 A2) : Prop :=
  match h, h' with
  | HRet a, HRet a' => RA a a'
  | HPanic, HPanic => True
  | HTau c, HTau c' => xsim V RA c c'
  | HRead i k, HRead i' k' => i = i' /\ forall v v', V v v' -> xsim V RA (k v) (k' v')
  | HWrite i v k, HWrite i' v' k' => i = i' /\ V v v' /\ xsim V RA k k'
  | HCall p k, HCall p' k' => RP p p' /\ forall c c', xsim V eq c c' -> xsim V RA (k c) (k' c')
  | HFork p k, HFork p' k' => RP p p' /\ xsim V RA k k'
  | HLoadMax k, HLoadMax k' | HLoadGor k, HLoadGor k' | HRecv k, HRecv k' => forall z, xsim V RA (k z) (k' z)
  | HAddGor d k, HAddGor d' k' => d = d' /\ forall z, xsim V RA (k z) (k' z)
  | HMakeSv k, HMakeSv k' => xsim V RA k k'
  | HSend z k, HSend z' k' => z = z' /\ xsim V RA k k'
  | _, _ => False
  end.

Lemma F2_len {X Y} (Q : X -> Y -> Prop) l l' : Forall2 Q l l' -> length l = length l'.
Proof. induction 1; cbn; congruence. Qed.

Lemma F2_nth {X Y} (Q : X -> Y -> Prop) l l' n : Forall2 Q l l' ->
  match nth_error l n, nth_error l' n with Some x, Some y => Q x y | None, None => True | _, _ => False end.
Proof. intro H. revert n. induction H as [|x y l l' Hx H IH]; intros [|n]; cbn; [exact I|exact I|exact Hx|apply IH]. Qed.

Lemma lget_sim {X Y} (Q : X -> Y -> Prop) l l' i : Forall2 Q l l' ->
  match lget l i, lget l' i with Some x, Some y => Q x y | None, None => True | _, _ => False end.
Proof. intro H. unfold lget. rewrite (F2_len _ _ _ H). destruct (_ && _); [apply F2_nth; exact H|exact I]. Qed.

Lemma lset_sim {X Y} (Q : X -> Y -> Prop) l l' i v v' : Forall2 Q l l' -> Q v v' ->
  match lset l i v, lset l' i v' with Some x, Some y => Forall2 Q x y | None, None => True | _, _ => False end.
Proof. intros H Hv. unfold lset. rewrite (F2_len _ _ _ H). destruct (_ && _); [|exact I].
  generalize (Z.to_nat i). induction H as [|x y l l' Hx H IH]; intros [|n]; cbn; auto. Qed.

Lemma xview {T1 T2} (V : T1 -> T2 -> Prop) {A1 A2} (RA : A1 -> A2 -> Prop) c c' : xsim V RA c c' -> xhsim V RA (view c) (view c').
Proof.
  induction 1 as [T1 T2 V A1 A2 RA a a' H|T1 T2 V A1 A2 RA|T1 T2 V B1 B2 A1 A2 RB RA c c' k k' H IH Hk IHk|T1 T2 V S1 S2 RS A1 A2 RA s s' f f' Hs H IH
    |T1 T2 V A1 A2 RA i k k' H IH|T1 T2 V A1 A2 RA i v v' k k' Hv H IH|T1 T2 V U1 U2 VU A1 A2 RA l l' c c' k k' Hl Hc IHc H IH
    |T1 T2 V A1 A2 RA p p' k k' Hp H IH|T1 T2 V A1 A2 RA c c' k k' Hc IHc H IH|T1 T2 V A1 A2 RA p p' k k' Hp H IH|T1 T2 V A1 A2 RA k k' H IH
    |T1 T2 V A1 A2 RA k k' H IH|T1 T2 V A1 A2 RA d k k' H IH|T1 T2 V A1 A2 RA k k' H IH|T1 T2 V A1 A2 RA z k k' H IH|T1 T2 V A1 A2 RA k k' H IH]; cbn [view xhsim]; auto.
  - destruct (view c), (view c'); cbn [xhsim hcont] in *; try contradiction;
      try (destruct IH as [IH1 IH]); try (destruct IH as [IH0 IH]); repeat split; auto; intros; try (eapply xs_bind; [|exact Hk]; auto).
  - eapply xs_bind; [apply H; exact Hs|]. intros [s1|a1] [s2|a2] E; cbn in E; try contradiction; [eapply xs_loop; eassumption|constructor; exact E].
  - destruct (view c), (view c'); cbn [xhsim] in *; try contradiction; auto; try (eapply xs_local; eassumption).
    + destruct IHc as [<- IHc]. assert (E := lget_sim VU l l' i Hl). destruct (lget l i), (lget l' i); try contradiction; cbn [xhsim]; [|exact I].
      eapply xs_local; [exact Hl|apply IHc; exact E|exact H].
    + destruct IHc as (<- & Hv & IHc). assert (E := lset_sim VU l l' i _ _ Hl Hv). destruct (lset l i v), (lset l' i v0); try contradiction; cbn [xhsim]; [|exact I].
      eapply xs_local; [exact E|exact IHc|exact H].
  - split; [exact Hp|]. intros. apply xs_incall; assumption.
  - destruct (view c), (view c'); cbn [xhsim hcont] in *; try contradiction; auto;
      try (destruct IHc as [IH1 IHc]); try (destruct IHc as [IH0 IHc]); repeat split; auto; intros; try (apply xs_incall; auto).
Qed.
End Sim.
Arguments xsim {P1 P2} RP {T1 T2} V {A1 A2} RA c c'.
Arguments xhsim {P1 P2} RP {T1 T2} V {A1 A2} RA h h'.

Section Machine.
Context {P1 P2 T1 T2 R : Type}.
Variable RP : P1 -> P2 -> Prop.
Variable V : T1 -> T2 -> Prop.
Variables (body1 : P1 -> cmd P1 T1 unit) (body2 : P2 -> cmd P2 T2 unit).
Hypothesis Hbody : forall p p', RP p p' -> xsim RP V eq (body1 p) (body2 p').
Variable Rg : Z -> Prop.

Definition shsim (s : shared T1) (s' : shared T2) : Prop :=
  ngor s = ngor s' /\ maxg s = maxg s' /\ chans s = chans s' /\ forall i, Rg i -> V (mem s i) (mem s' i).

Definition ssim (s : st P1 T1 R) (s' : st P2 T2 R) : Prop :=
  xsim RP V eq (main s) (main s') /\ Forall2 (xsim RP V eq) (thr s) (thr s') /\ shsim (sh s) (sh s').

Lemma access_sim {A1 A2} (RA : A1 -> A2 -> Prop) c c' : xsim RP V RA c c' -> access  c = access c'.
Proof.
  intro H. apply xview in H. unfold access. destruct (view c), (view c'); cbn [xhsim] in H; try contradiction; try reflexivity;
    destruct H as [E _]; try reflexivity; rewrite E; reflexivity.
Qed.

Lemma label_sim {A1 A2} (RA : A1 -> A2 -> Prop) t n c c' : xsim RP V RA c c' -> Trace.label  t n c = Trace.label t n c'.
Proof.
  intro H. apply xview in H. unfold Trace.label. destruct (view c), (view c'); cbn [xhsim] in H; try contradiction; try reflexivity;
    destruct H as [E _]; try reflexivity; rewrite E; reflexivity.
Qed.

Lemma local_sim {A1 A2} (RA : A1 -> A2 -> Prop) c c' s s' c1 s1 fs : xsim RP V RA c c' -> shsim s s' ->
  (forall x, access c = Some (x, false) -> Rg x) ->
  exec_local body1 c s = Some (c1, s1, fs) ->
  exists c2 s2 fs', exec_local body2 c' s' = Some (c2, s2, fs') /\ xsim RP V RA c1 c2 /\ shsim s1 s2 /\ Forall2 (xsim RP V eq) fs fs'.
Proof.
  intros H (Hn & Hm & Hc & Hv) Ha He. apply xview in H. unfold access in Ha. unfold exec_local in *.
  assert (S0 : shsim s s') by (repeat split; auto).
  destruct (view c) eqn:E, (view c') eqn:E'; cbn [xhsim] in H; try contradiction; try discriminate; injection He as <- <- <-.
  - do 3 eexists. split; [reflexivity|]. auto.
  - destruct H as [<- H]. do 3 eexists. split; [reflexivity|]. split; [|auto]. apply H, Hv. eapply Ha. reflexivity.
  - destruct H as (<- & Hw & H). do 3 eexists. split; [reflexivity|]. split; [exact H|]. split; [|constructor].
    repeat split; cbn; auto. intros j Hj. unfold upd. destruct (j =? i); [exact Hw|auto].
  - destruct H as [Hp H]. do 3 eexists. split; [reflexivity|]. auto.
  - destruct H as [Hp H]. do 3 eexists. split; [reflexivity|]. split; [exact H|]. split; [exact S0|]. constructor; [apply Hbody; exact Hp|constructor].
  - do 3 eexists. split; [reflexivity|]. rewrite <- Hm. auto.
  - do 3 eexists. split; [reflexivity|]. rewrite <- Hn. auto.
  - destruct H as [<- H]. do 3 eexists. split; [reflexivity|]. rewrite <- Hn. split; [apply H|]. split; [|constructor]. repeat split; cbn; auto.
  - do 3 eexists. split; [reflexivity|]. split; [exact H|]. split; [|constructor]. repeat split; cbn; auto. lia.
Qed.

Lemma F2_mid {X Y} (Q : X -> Y -> Prop) l1 x l2 l : Forall2 Q (l1 ++ x :: l2) l ->
  exists k1 y k2, l = k1 ++ y :: k2 /\ Forall2 Q l1 k1 /\ Q x y /\ Forall2 Q l2 k2 /\ length l1 = length k1.
Proof.
  intro H. apply Forall2_app_inv_l in H. destruct H as (k1 & k & H1 & H2 & ->). inversion H2 as [|? y ? k2 Hx H3]; subst.
  exists k1, y, k2. repeat split; auto. eapply F2_len. exact H1.
Qed.

Lemma access_label {A} (c : cmd P1 T1 A) x t n : access c = Some (x, false) -> Trace.label t n c = EvRead t x.
Proof. unfold access, Trace.label. destruct (view c); try discriminate. intro E. injection E as ->. reflexivity. Qed.

Lemma tstep_sim e s t s' : (forall x u, e = EvRead u x -> In (Some (x, false)) (accesses s) -> Rg x) -> ssim s t -> tstep body1 e s s' ->
  exists t', tstep body2 e t t' /\ ssim s' t'.
Proof.
  intros Ha (Hm & Ht & Hs) H. destruct t as [mt tt st]. cbn [main thr sh] in *.
  destruct H as [m ts s m' s' fs Hx|m l1 d l2 s d' s' fs Hx|m l1 d l2 s v k k' H1 H2|m l1 d l2 s v k k' H1 H2
    |m l1 c1 l2 c2 l3 s v k k' H1 H2|m l1 c1 l2 c2 l3 s v k k' H1 H2|m ts s k z H1|m l1 d l2 s k z H1]; cbn [main thr sh] in *.
  - edestruct (local_sim eq m mt s st) as (c2 & s2 & fs' & E & A & B & D); [exact Hm|exact Hs| |exact Hx|].
    { intros x Hw. apply (Ha x 0%nat); [apply access_label; exact Hw|]. left. exact Hw. }
    exists (St c2 (tt ++ fs') s2). split; [|split; [exact A|split; [apply Forall2_app; assumption|exact B]]].
    rewrite (label_sim _ _ _ _ _ Hm), (F2_len _ _ _ Ht). apply tstep_main. exact E.
  - destruct (F2_mid _ _ _ _ _ Ht) as (k1 & y & k2 & -> & F1 & F2 & F3 & EL).
    edestruct (local_sim eq d y s st) as (c2 & s2 & fs' & E & A & B & D); [exact F2|exact Hs| |exact Hx|].
    { intros x Hw. eapply (Ha x); [apply access_label; exact Hw|]. right. cbn [thr]. rewrite map_app. apply in_app_iff. right. left. exact Hw. }
    exists (St mt (k1 ++ c2 :: k2 ++ fs') s2). split; [|split; [exact Hm|split; [|exact B]]].
    + rewrite (label_sim _ _ _ _ _ F2), (F2_len _ _ _ Ht), EL. apply tstep_thr. exact E.
    + cbn. apply Forall2_app; [exact F1|]. constructor; [exact A|]. apply Forall2_app; assumption.
  - destruct (F2_mid _ _ _ _ _ Ht) as (k1 & y & k2 & -> & F1 & F2 & F3 & EL).
    assert (X1 := xview _ _ _ _ _ F2). assert (X2 := xview _ _ _ _ _ Hm). rewrite H1 in X1. rewrite H2 in X2.
    destruct (view y) eqn:Ey; cbn [xhsim] in X1; try contradiction. destruct X1 as [<- X1].
    destruct (view mt) eqn:Em; cbn [xhsim] in X2; try contradiction.
    eexists. split; [rewrite EL; eapply tstep_to_main; eassumption|]. split; [apply X2|]. split; [|exact Hs].
    cbn. apply Forall2_app; [exact F1|]. constructor; assumption.
  - destruct (F2_mid _ _ _ _ _ Ht) as (k1 & y & k2 & -> & F1 & F2 & F3 & EL).
    assert (X1 := xview _ _ _ _ _ F2). assert (X2 := xview _ _ _ _ _ Hm). rewrite H2 in X1. rewrite H1 in X2.
    destruct (view y) eqn:Ey; cbn [xhsim] in X1; try contradiction.
    destruct (view mt) eqn:Em; cbn [xhsim] in X2; try contradiction. destruct X2 as [<- X2].
    eexists. split; [rewrite EL; eapply tstep_from_main; eassumption|]. split; [apply X2|]. split; [|exact Hs].
    cbn. apply Forall2_app; [exact F1|]. constructor; [apply X1|assumption].
  - destruct (F2_mid _ _ _ _ _ Ht) as (k1 & y & k2' & -> & F1 & F2 & F3 & EL).
    destruct (F2_mid _ _ _ _ _ F3) as (k2 & y' & k3 & -> & G1 & G2 & G3 & EL').
    assert (X1 := xview _ _ _ _ _ F2). assert (X2 := xview _ _ _ _ _ G2). rewrite H1 in X1. rewrite H2 in X2.
    destruct (view y) eqn:Ey; cbn [xhsim] in X1; try contradiction. destruct X1 as [<- X1].
    destruct (view y') eqn:Em; cbn [xhsim] in X2; try contradiction.
    eexists. split; [rewrite EL, EL'; eapply tstep_thr_thr1; eassumption|]. split; [exact Hm|]. split; [|exact Hs].
    cbn. apply Forall2_app; [exact F1|]. constructor; [exact X1|]. apply Forall2_app; [exact G1|]. constructor; [apply X2|exact G3].
  - destruct (F2_mid _ _ _ _ _ Ht) as (k1 & y & k2' & -> & F1 & F2 & F3 & EL).
    destruct (F2_mid _ _ _ _ _ F3) as (k2 & y' & k3 & -> & G1 & G2 & G3 & EL').
    assert (X1 := xview _ _ _ _ _ F2). assert (X2 := xview _ _ _ _ _ G2). rewrite H1 in X1. rewrite H2 in X2.
    destruct (view y) eqn:Ey; cbn [xhsim] in X1; try contradiction.
    destruct (view y') eqn:Em; cbn [xhsim] in X2; try contradiction. destruct X2 as [<- X2].
    eexists. split; [rewrite EL, EL'; eapply tstep_thr_thr2; eassumption|]. split; [exact Hm|]. split; [|exact Hs].
    cbn. apply Forall2_app; [exact F1|]. constructor; [apply X1|]. apply Forall2_app; [exact G1|]. constructor; [exact X2|exact G3].
  - assert (X2 := xview _ _ _ _ _ Hm). rewrite H1 in X2. destruct (view mt) eqn:Em; cbn [xhsim] in X2; try contradiction.
    eexists. split; [eapply tstep_stale_main; eassumption|]. split; [apply X2|]. split; [exact Ht|exact Hs].
  - destruct (F2_mid _ _ _ _ _ Ht) as (k1 & y & k2 & -> & F1 & F2 & F3 & EL).
    assert (X1 := xview _ _ _ _ _ F2). rewrite H1 in X1. destruct (view y) eqn:Ey; cbn [xhsim] in X1; try contradiction.
    eexists. split; [rewrite EL; eapply tstep_stale_thr; eassumption|]. split; [exact Hm|]. split; [|exact Hs].
    cbn. apply Forall2_app; [exact F1|]. constructor; [apply X1|exact F3].
Qed.

Lemma estep_sim M s t s' : ssim s t -> estep M Rg s s' -> exists t', estep M Rg t t' /\ ssim s' t'.
Proof.
  intros (Hm & Ht & Hn & Hg & Hc & Hv) H. destruct t as [mt tt st]. destruct H as [m ts s mem' mg' H1 H2]. cbn [main thr sh] in *.
  exists (St mt tt (Sh (mem st) (ngor st) mg' (chans st))). split; [constructor; auto|]. split; [exact Hm|]. split; [exact Ht|].
  repeat split; cbn; auto. intros i Hi. rewrite H2 by exact Hi. auto.
Qed.

Lemma ssim_accesses s t : ssim s t -> accesses s = accesses t.
Proof.
  intros (Hm & Ht & _). unfold accesses. rewrite (access_sim _ _ _ Hm). f_equal.
  induction Ht as [|x y l l' H _ IH]; [reflexivity|]. cbn. rewrite (access_sim _ _ _ H), IH. reflexivity.
Qed.

Lemma texec_simr M tr s0 t0 s : (forall tr' t', texec body2 M Rg tr' t0 t' -> forall x w, In (Some (x, w)) (accesses t') -> Rg x) ->
  ssim s0 t0 -> texec body1 M Rg tr s0 s -> exists t, texec body2 M Rg tr t0 t /\ ssim s t.
Proof.
  intros Hb H0 H. induction H as [s|tr e s s1 s2 H IH Hs|tr s s1 s2 H IH Hs].
  - exists t0. split; [constructor|exact H0].
  - destruct (IH H0) as (t & Ht & Hsim). destruct (tstep_sim e s1 t s2) as (t' & A & B); [|exact Hsim|exact Hs|].
    { intros x u _. rewrite (ssim_accesses _ _ Hsim). eapply Hb. exact Ht. }
    exists t'. split; [eapply texec_prog; eassumption|exact B].
  - destruct (IH H0) as (t & Ht & Hsim). destruct (estep_sim M s1 t s2 Hsim Hs) as (t' & A & B).
    exists t'. split; [eapply texec_env; eassumption|exact B].
Qed.

Lemma ssim_returned s t r : ssim s t -> (returned s r <-> returned t r).
Proof.
  intros (Hm & _). apply xview in Hm. unfold returned.
  destruct (view (main s)), (view (main t)); cbn [xhsim] in Hm; try contradiction; split; intro H; try discriminate; congruence.
Qed.
End Machine.

(** ** Two instances of the code of [Typed.v] *)

Section Kinds.
Context {Wd : word}.
Context {T1 T2 K1 K2 : Type}.
Variables (key1 : T1 -> K1) (key2 : T2 -> K2) (lt1 le1 : K1 -> K1 -> bool) (lt2 le2 : K2 -> K2 -> bool) (me1 : K1 -> K1 -> K1) (me2 : K2 -> K2 -> K2) (ev f0 : bool).
Variables (V : T1 -> T2 -> Prop) (KV : K1 -> K2 -> Prop).
Hypothesis HV : forall x y, V x y -> KV (key1 x) (key2 y).
Hypothesis Hlt : forall x x' y y', KV x x' -> KV y y' -> lt1 x y = lt2 x' y'.
Hypothesis Hle : forall x x' y y', KV x x' -> KV y y' -> le1 x y = le2 x' y'.
Hypothesis Hme : ev = true -> forall x x' y y', KV x x' -> KV y y' -> KV (me1 x y) (me2 x' y').
Variables (tn : tuning) (meanI : Z -> Z -> Z).

Let kd1 := Kind key1 lt1 le1 me1 ev f0.
Let kd2 := Kind key2 lt2 le2 me2 ev f0.

Definition procR (p : proc K1) (p' : proc K2) : Prop :=
  match p, p' with
  | PShort s, PShort s' | PGLong s, PGLong s' => s = s'
  | PLong s sv, PLong s' sv' => s = s' /\ sv = sv'
  | PGPart s pv, PGPart s' pv' => s = s' /\ KV pv pv'
  | _, _ => False
  end.

Notation "a ~~ b" := (xsim procR V eq a b) (at level 70).

Lemma x_get {X Y} (Q : X -> Y -> Prop) s i : xsim procR Q Q (sget s i) (sget s i).
Proof. unfold sget. destruct (_ && _); constructor. intros v v' H. constructor. exact H. Qed.
Lemma x_set {X Y} (Q : X -> Y -> Prop) s i v v' : Q v v' -> xsim procR Q eq (sset s i v) (sset s i v').
Proof. intro H. unfold sset. destruct (_ && _); [|constructor]. constructor; [exact H|]. constructor. reflexivity. Qed.

Section Any.
Context {X Y : Type}.
Variable Q : X -> Y -> Prop.

Lemma x_bind {A B1 B2} (c : cmd (proc K1) X A) (c' : cmd (proc K2) Y A) (k : A -> cmd (proc K1) X B1) (k' : A -> cmd (proc K2) Y B2) RB : xsim procR Q eq c c' ->
  (forall a, xsim procR Q RB (k a) (k' a)) -> xsim procR Q RB (Bind c k) (Bind c' k').
Proof. intros H Hk. eapply xs_bind; [exact H|]. intros b b' <-. apply Hk. Qed.
Lemma x_loop {S A1 A2} (s : S) (f : S -> cmd (proc K1) X (S + A1)) (f' : S -> cmd (proc K2) Y (S + A2)) RA : (forall s, xsim procR Q (sum2 eq RA) (f s) (f' s)) ->
  xsim procR Q RA (Loop s f) (Loop s f').
Proof. intro H. apply xs_loop with (RS := eq); [reflexivity|]. intros s1 s2 <-. apply H. Qed.
Lemma x_if {A1 A2} (b : bool) (c1 c2 : cmd (proc K1) X A1) (c1' c2' : cmd (proc K2) Y A2) RA : xsim procR Q RA c1 c1' -> xsim procR Q RA c2 c2' ->
  xsim procR Q RA (if b then c1 else c2) (if b then c1' else c2').
Proof. destruct b; auto. Qed.
Lemma x_ret {A} (a : A) : xsim procR Q eq (Ret a) (Ret a).
Proof. constructor. reflexivity. Qed.
Lemma x_goto {S A1 A2} (s : S) (RA : A1 -> A2 -> Prop) : xsim procR Q (sum2 eq RA) (Ret (inl s)) (Ret (inl s)).
Proof. constructor. reflexivity. Qed.
Lemma x_done {S A} (a : A) : xsim procR Q (@sum2 S S _ _ eq (@eq A)) (Ret (inr a)) (Ret (inr a)).
Proof. constructor. reflexivity. Qed.
Lemma x_reslice s l h : xsim procR Q eq (reslice s l h) (reslice s l h).
Proof. unfold reslice. destruct (_ && _); constructor. reflexivity. Qed.

Lemma x_insertion (lt : X -> X -> bool) (lt' : Y -> Y -> bool) s : (forall x x' y y', Q x x' -> Q y y' -> lt x y = lt' x' y') ->
  xsim procR Q eq (insertion lt s) (insertion lt' s).
Proof.
  intro HQ. unfold insertion. apply x_loop. intros h. apply x_if; [|apply x_done]. eapply xs_bind; [apply x_get|]. intros x x' Hx.
  apply x_bind.
  - apply x_loop. intros l. eapply xs_bind; [apply x_get|]. intros y y' Hy. rewrite (HQ x x' y y' Hx Hy). apply x_if.
    + apply x_bind; [apply x_set; exact Hy|intros _]. apply x_if; [apply x_done|apply x_goto].
    + apply x_if; apply x_done.
  - intros [l|]; [|apply x_goto]. apply x_bind; [apply x_set; exact Hx|intros _]. apply x_goto.
Qed.
End Any.

Lemma x_read {B1 B2} s i (k : T1 -> cmd (proc K1) T1 B1) (k' : T2 -> cmd (proc K2) T2 B2) RB :
  (forall x y, V x y -> KV (key1 x) (key2 y) -> xsim procR V RB (k x) (k' y)) -> xsim procR V RB (Bind (sget s i) k) (Bind (sget s i) k').
Proof. intro H. eapply xs_bind; [apply x_get|]. intros x y Hxy. apply H; [exact Hxy|apply HV; exact Hxy]. Qed.

Lemma x_swap s l h : sswap s l h ~~ sswap s l h.
Proof.
  unfold sswap. apply x_read. intros x x' Hx _. apply x_read. intros y y' Hy _. apply x_bind; [apply x_set; exact Hx|intros _; apply x_set; exact Hy].
Qed.

Ltac sim := repeat first
  [ progress cbn [key ltb leb mean even fc kd1 kd2]
  | apply x_ret | apply x_goto | apply x_done | apply x_swap | apply x_reslice | apply xs_panic
  | match goal with |- xsim _ _ _ (if lt1 ?a ?b then _ else _) (if lt2 ?c ?d then _ else _) => rewrite (Hlt a c b d) by assumption end
  | match goal with |- xsim _ _ _ (if le1 ?a ?b then _ else _) (if le2 ?c ?d then _ else _) => rewrite (Hle a c b d) by assumption end
  | apply x_read; intros ? ? ? ? | apply x_if | apply x_bind; [|intros ?] | apply x_loop; intros ?
  | apply xs_call; [cbn; auto|] | apply xs_fork; [cbn; auto|] | apply xs_max; intros ? | apply xs_gor; intros ? | apply xs_add; intros ?
  | apply xs_sv | apply xs_send | apply xs_recv; intros ?
  | match goal with |- xsim _ _ _ (let _ := _ in _) _ => cbv zeta end
  | match goal with |- xsim _ _ _ (match ?x with _ => _ end) _ => is_var x; destruct x end ].

Lemma x_samples s n first step : xsim procR V (Forall2 KV) (samples kd1 s n first step) (samples kd2 s n first step).
Proof.
  unfold samples. apply xs_loop with (RS := fun a b => fst a = fst b /\ Forall2 KV (snd a) (snd b)); [cbn; auto|].
  intros [[i f] acc] [[i' f'] acc'] [E H]. cbn [fst snd] in *. injection E as <- <-. apply x_if; [|constructor; exact H].
  apply x_read. intros x y Hx Ex. constructor. cbn. auto.
Qed.

Lemma x_pivot s n : xsim procR V KV (pivot kd1 s n) (pivot kd2 s n).
Proof.
  unfold pivot. destruct (minMaxSample _ _) as [[first step] last]. eapply xs_bind; [apply x_samples|]. intros l l' Hl. cbn [ltb kd1 kd2].
  eapply xs_local; [exact Hl|apply x_insertion; exact Hlt|]. clear l l' Hl. intros l l' Hl. cbv zeta. cbn [even mean].
  assert (E := lget_sim KV l l' (Z.shiftr n 1) Hl). assert (E' := lget_sim KV l l' (Z.shiftr n 1 - 1) Hl). destruct ev eqn:Ev.
  - destruct (lget l (_ - 1)), (lget l' (_ - 1)); try contradiction; [|constructor].
    destruct (lget l _), (lget l' _); try contradiction; constructor. apply Hme; auto.
  - destruct (lget l (Z.shiftr n 1)), (lget l' (Z.shiftr n 1)); try contradiction; constructor. exact E.
Qed.

Lemma x_partOne s pv pv' : KV pv pv' -> partOne kd1 s pv ~~ partOne kd2 s pv'.
Proof. intro Hp. unfold partOne. apply x_loop. intros [l h|l h|l h|l h|l h|l h]; sim. Qed.

Lemma x_partTwo s l h pv pv' : KV pv pv' -> partTwo kd1 s l h pv ~~ partTwo kd2 s l h pv'.
Proof. intro Hp. unfold partTwo. cbv zeta. apply x_if; [sim|]. apply x_loop. intros [l' h'|l' h'|l' h'|l' h'|l' h'|l' h']; sim. Qed.

Lemma x_gapLow s pv pv' r k : KV pv pv' -> gapLow kd1 s pv r k ~~ gapLow kd2 s pv' r k.
Proof. intro Hp. unfold gapLow. apply x_loop. intros [r' k']. sim. Qed.
Lemma x_gapHigh s pv pv' r k : KV pv pv' -> gapHigh kd1 s pv r k ~~ gapHigh kd2 s pv' r k.
Proof. intro Hp. unfold gapHigh. apply x_loop. intros [r' k']. sim. Qed.

Lemma x_partCon s : partCon kd1 meanI s ~~ partCon kd2 meanI s.
Proof.
  unfold partCon. eapply xs_bind; [apply x_pivot|]. intros pv pv' Hp. cbv zeta. apply x_bind; [apply x_reslice|intros p]. apply xs_fork; [cbn; auto|].
  apply x_bind; [apply x_partTwo; exact Hp|intros r]. apply xs_recv. intros z. apply x_if; [apply x_gapLow|apply x_gapHigh]; exact Hp.
Qed.

Lemma x_split s k : xsim procR V eq (split s k) (split s k).
Proof. unfold split. sim. Qed.

Lemma x_pivotShort s : xsim procR V KV (pivotShort kd1 s) (pivotShort kd2 s).
Proof.
  unfold pivotShort. cbn [even kd1 kd2]. destruct ev eqn:Ev.
  - destruct (minMaxFour _) as [first step].
    apply x_read. intros a a' _ Ha. apply x_read. intros b b' _ Hb. apply x_read. intros c c' _ Hc. apply x_read. intros d d' _ Hd. cbv zeta. cbn [ltb key mean kd1 kd2].
    assert (G : forall a a' b b' c c' d d', KV a a' -> KV b b' -> KV c c' -> KV d d' ->
      xsim procR V KV (Ret (me1 (if lt1 b a then a else b) (if lt1 d c then d else c))) (Ret (me2 (if lt2 b' a' then a' else b') (if lt2 d' c' then d' else c')))).
    { clear - Hme Hlt. intros a a' b b' c c' d d' Ha Hb Hc Hd. constructor. rewrite (Hlt _ _ _ _ Hb Ha), (Hlt _ _ _ _ Hd Hc).
      apply Hme; [reflexivity| |]; [destruct (lt2 b' a')|destruct (lt2 d' c')]; assumption. }
    rewrite (Hlt _ _ _ _ Hd Hb), (Hlt _ _ _ _ Hc Ha). destruct (lt2 (key2 d') (key2 b')), (lt2 (key2 c') (key2 a')); apply G; assumption.
  - destruct (minMaxSample _ _) as [[first step] last].
    apply x_read. intros f f' _ Hf. apply x_read. intros p p' _ Hp. apply x_read. intros l l' _ Hl. cbv zeta. cbn [ltb key kd1 kd2].
    rewrite (Hlt _ _ _ _ Hp Hf). destruct (lt2 (key2 p') (key2 f')).
    + rewrite (Hlt _ _ _ _ Hl Hf). destruct (lt2 (key2 l') (key2 f')); [|constructor; exact Hf].
      rewrite (Hlt _ _ _ _ Hl Hp). destruct (lt2 (key2 l') (key2 p')); constructor; assumption.
    + rewrite (Hlt _ _ _ _ Hl Hp). destruct (lt2 (key2 l') (key2 p')); [|constructor; exact Hp].
      rewrite (Hlt _ _ _ _ Hl Hf). destruct (lt2 (key2 l') (key2 f')); constructor; assumption.
Qed.

Lemma x_gorFull : xsim procR V eq gorFull gorFull.
Proof. unfold gorFull. sim. Qed.

Lemma x_ins s : insertion (ltT kd1) s ~~ insertion (ltT kd2) s.
Proof. apply x_insertion. intros x x' y y' Hx Hy. unfold ltT. cbn [ltb key kd1 kd2]. apply Hlt; apply HV; assumption. Qed.

Lemma x_short s : short kd1 tn s ~~ short kd2 tn s.
Proof.
  unfold short. apply x_loop. intros [ar|[ar aq]].
  - eapply xs_bind; [apply x_pivotShort|]. intros pv pv' Hp. apply x_bind; [apply x_partOne; exact Hp|intros k]. apply x_bind; [apply x_split|intros [aq ar']]. sim.
  - apply x_bind; [apply x_ins|intros _]. sim.
Qed.

Lemma x_long s sv : long kd1 tn s sv ~~ long kd2 tn s sv.
Proof.
  unfold long. apply x_loop. intros ar.
  eapply xs_bind; [apply x_pivot|]. intros pv pv' Hp. apply x_bind; [apply x_partOne; exact Hp|intros k]. apply x_bind; [apply x_split|intros [aq ar']].
  cbn [fc kd1 kd2]. apply x_if.
  - apply x_bind; [|intros _; sim]. apply x_if; [sim|apply x_ins].
  - apply x_bind; [apply x_if; [apply x_gorFull|sim]|intros full]. sim.
Qed.

Lemma x_body p p' : procR p p' -> body kd1 tn p ~~ body kd2 tn p'.
Proof.
  destruct p as [s|s sv|s|s pv], p' as [s'|s' sv'|s'|s' pv']; cbn [procR]; try contradiction; cbn [body].
  - intros <-. apply x_short.
  - intros [<- <-]. apply x_long.
  - intros <-. unfold gLong. sim.
  - intros [<- Hp]. unfold gPartOne. apply x_bind; [apply x_partOne; exact Hp|intros k]. sim.
Qed.

Lemma x_sort s : sort kd1 tn meanI s ~~ sort kd2 tn meanI s.
Proof.
  unfold sort. cbn [fc kd1 kd2]. apply x_bind; [unfold minConc; sim|intros single]. apply x_if; [apply x_if; [sim|apply x_if; [sim|apply x_ins]]|].
  unfold sortConc. apply xs_sv. apply x_bind.
  - apply x_loop. intros ar. apply x_bind; [apply x_partCon|intros k]. apply x_bind; [apply x_split|intros [aq ar']]. cbn [fc kd1 kd2].
    apply x_bind; [apply x_if; [sim|apply x_if; [sim|apply x_ins]]|intros _]. unfold minConc. cbn [fc kd1 kd2]. apply x_if; [sim|].
    apply x_bind; [apply x_gorFull|intros full]. sim.
  - intros ar. sim.
Qed.

Variables (ne1 : T1 -> bool) (ne2 : T2 -> bool).
Hypothesis Hne : forall x y, V x y -> ne1 x = ne2 y.

Lemma x_prepass o1 o2 s : xsim procR V eq (prepass ne1 o1 o2 s) (prepass ne2 o1 o2 s).
Proof.
  unfold prepass, nanToEnd, nanToStart. apply x_if; [|apply x_if; [|apply x_ret]].
  - apply x_bind; [|intros h; apply x_reslice]. apply x_loop. intros [l h]. apply x_if; [|apply x_done].
    apply x_read. intros x x' Hx _. rewrite (Hne x x' Hx). apply x_if; [apply x_goto|].
    apply x_read. intros y y' Hy _. rewrite (Hne y y' Hy). apply x_if; [|apply x_goto].
    apply x_bind; [apply x_set; exact Hx|intros _]. apply x_bind; [apply x_set; exact Hy|intros _]. apply x_goto.
  - apply x_bind; [|intros h; apply x_reslice]. apply x_loop. intros [l h]. apply x_if; [|apply x_done].
    apply x_read. intros x x' Hx _. rewrite (Hne x x' Hx). apply x_if; [apply x_goto|].
    apply x_read. intros y y' Hy _. rewrite (Hne y y' Hy). apply x_if; [|apply x_goto].
    apply x_bind; [apply x_set; exact Hy|intros _]. apply x_bind; [apply x_set; exact Hx|intros _]. apply x_goto.
Qed.
End Kinds.

(** ** Specification *)

(** The elements with each number are NaN in both or in neither, and are ordered the same way. *)
Definition orderedAlike (e1 e2 : ety) (m1 : Z -> elem e1) (m2 : Z -> elem e2) (s : slice) : Prop :=
  forall i j, cellsOf s i -> cellsOf s j ->
    (nan e1 (m1 i) <-> nan e2 (m2 i)) /\
    (~ nan e1 (m1 i) -> ~ nan e1 (m1 j) -> (le e1 (m1 i) (m1 j) <-> le e2 (m2 i) (m2 j))).

(** Two float types, or two of string and byte slice. *)
Definition sameSort (e1 e2 : ety) : Prop :=
  In e1 [TF4; TF8] /\ In e2 [TF4; TF8] \/ In e1 [TS; TB] /\ In e2 [TS; TB].

(** ** Proofs *)

Section Top.
Variables (pl : plat) (tn : tuning).
Hypothesis Hpl : platOk pl.
Hypothesis Htn : tuningOk pl tn.
Variables (opt : Z) (s : slice) (M : Z).

Definition odd (e : ety) : Prop := In e [TF4; TF8; TS; TB].

Lemma leb_spec e x y : odd e -> wellTyped pl e x -> wellTyped pl e y ->
  (leb (kindOf pl e) (key (kindOf pl e) x) (key (kindOf pl e) y) = true <-> ~ nan e x /\ ~ nan e y /\ le e x y).
Proof.
  intros Ho Hx Hy. split.
  - intro H. assert (N : ~ nan e x /\ ~ nan e y).
    { destruct e; cbn in Ho; try tauto; cbn [kindOf key leb nan] in *; try tauto; rewrite <- !decode_nan by lia;
        match goal with H : SFleb ?a ?b = true |- _ => split; intro E; rewrite E in H; [discriminate|]; destruct a as [[]|[]| |[] ? ?]; discriminate end. }
    destruct N as [N1 N2]. split; [exact N1|]. split; [exact N2|]. apply (le_leb pl); assumption.
  - intros (N1 & N2 & H). apply (le_leb pl); assumption.
Qed.

Lemma ltb_spec e x y : odd e -> wellTyped pl e x -> wellTyped pl e y ->
  (ltb (kindOf pl e) (key (kindOf pl e) x) (key (kindOf pl e) y) = true <-> ~ nan e x /\ ~ nan e y /\ ~ le e y x).
Proof.
  intros Ho Hx Hy. assert (N : ltb (kindOf pl e) (key (kindOf pl e) x) (key (kindOf pl e) y) = true -> ~ nan e x /\ ~ nan e y).
  { intro H. destruct e; cbn in Ho; try tauto; cbn [kindOf key ltb nan] in *; try tauto; rewrite <- !decode_nan by lia;
      match goal with H : SFltb ?a ?b = true |- _ => split; intro E; rewrite E in H; [discriminate|]; destruct a as [[]|[]| |[] ? ?]; discriminate end. }
  assert (L : ~ nan e x -> ~ nan e y -> leb (kindOf pl e) (key (kindOf pl e) y) (key (kindOf pl e) x) = negb (ltb (kindOf pl e) (key (kindOf pl e) x) (key (kindOf pl e) y))).
  { destruct e; cbn in Ho; try (exfalso; intuition discriminate); cbn [kindOf key ltb leb nan]; rewrite <- ?decode_nan by lia; intros N1 N2; [apply SFleb_ltb; assumption..|apply bytes_le_lt|apply bytes_le_lt]. }
  split.
  - intro H. destruct (N H) as [N1 N2]. split; [exact N1|]. split; [exact N2|]. intro Hle. apply (le_leb pl) in Hle; try assumption. rewrite (L N1 N2), H in Hle. discriminate.
  - intros (N1 & N2 & H). destruct (ltb _ _ _) eqn:E; [reflexivity|]. exfalso. apply H. apply (le_leb pl); try assumption. rewrite (L N1 N2). reflexivity.
Qed.

(** Any instance of the code keeps all elements, whatever the comparisons answer. *)
Section Keep.
Context {T K : Type}.
Variables (kd : kind T K) (m0 : Z -> T) (ne : T -> bool) (fl : bool).
Hypothesis Hs : goSlice pl s.

Definition progF : cmd (proc K) T unit :=
  if fl then s' <- prepass ne opt opt s ;; sort (Wd := pword pl) kd tn (mI pl) s' else sort (Wd := pword pl) kd tn (mI pl) s.
Definition kindCall : call T :=
  Calls.Call (proc K) (body (Wd := pword pl) kd tn) progF (cellsOf s) m0 (len s) (fc kd) (fun _ => True).

Lemma kind_grain : typedGrain (Wd := pword pl) kd tn = callGrain tn kindCall.
Proof. unfold typedGrain, callGrain, kindCall. cbn [cFC]. reflexivity. Qed.

Lemma kind_safe : safe tn kindCall (fun w => Permutation (contents w s) (contents m0 s)) MInit.
Proof.
  intro m. assert (H0 := proj1 Hs). assert (Hb := proj2 Hs). rewrite (intSize_eq pl) in Hb.
  assert (G : forall m' s' v, AnySort.within s' s -> 0 <= len s' -> permS s m0 v ->
    sp (Gr := callGrain tn kindCall) (body (Wd := pword pl) kd tn) (Z.to_nat (Z.log2 (len s) + 2)) m' (Z.to_nat (Z.log2 (len s) + 2))
      (QMS (fun (_ : unit) w => Permutation (contents w s) (contents m0 s)))
      (sort (Wd := pword pl) kd tn (mI pl) s') (Gst (reg s) (reg s) v MInit 0)).
  { intros m' s' v Hw Hl Hp. assert (Hlen : len s' <= len s) by (destruct Hw; lia).
    assert (HL : Z.log2 (len s') <= Z.log2 (len s)) by (apply Z.log2_le_mono; lia). assert (L0 := Z.log2_nonneg (len s')).
    rewrite <- kind_grain. eapply sp_conseq.
    - apply (sp_sort kd tn (mI pl) (meanOk_of pl Hpl) (tuning_ins kd tn Htn)
        (tuning_rec kd tn Htn) _ (tuning_rec2 kd tn Htn) m' (reg s) s' v 0 MInit); auto; try lia.
      intros i Hi. unfold reg in *. destruct Hw. lia.
    - lia.
    - intros [] g. unfold QMS, QM. assert (Kw : forall w, permX (reg s) s' v w -> Permutation (contents w s) (contents m0 s)).
      { intros w [HP Ho]. rewrite !contents_seg. apply permR_seg. eapply permR_trans; [exact Hp|].
        apply (permR_widen (off s') (off s' + len s')); [apply Hw|lia|apply Hw|exact HP|]. intros i Hi. symmetry. apply Ho; unfold reg; destruct Hw; lia. }
      destruct (md g); auto. }
  cbn [kindCall cProcs cProg cCells cInit cLen]. unfold progF.
  destruct fl; [|apply G; [split; lia|exact H0|apply permR_refl]].
  destruct (Z.eq_dec opt 1) as [E1|E1]; [|destruct (Z.eq_dec opt (-1)) as [E2|E2]].
  1,2: eapply sp_bind with (Q1 := fun b g' => AnySort.within b s /\ 0 <= len b /\ exists v, permS s m0 v /\ g' = Gst (reg s) (reg s) v MInit 0);
    [eapply sp_seq with (D1 := O); [exact I|apply (swp_prepass (body (Wd := pword pl) kd tn) ne opt s m0 O H0); tauto|lia|auto|auto|];
      cbv beta; intros s' j v' [(Hp & Hi & Hl & _) [O1 O2]] _; split; [unfold AnySort.within; lia|split; [lia|exists v'; split; [exact Hp|reflexivity]]]
    |cbv beta; intros b g' m' _ (Hw & Hl & v & Hp & ->); apply G; assumption].
  unfold prepass. destruct (Z.eqb_spec opt NaNlarge); [contradiction|]. destruct (Z.eqb_spec opt NaNsmall); [contradiction|].
    eapply sp_bind with (Q1 := fun b g' => b = s /\ g' = Gst (reg s) (reg s) m0 MInit 0); [apply sp_ret; auto|].
    intros b g' m' _ [-> ->]. apply G; [split; lia|exact H0|apply permR_refl].
Qed.
End Keep.

Section Pair.
Context {T1 T2 K1 K2 : Type}.
Variables (key1 : T1 -> K1) (key2 : T2 -> K2) (lt1 le1 : K1 -> K1 -> bool) (lt2 le2 : K2 -> K2 -> bool) (me1 : K1 -> K1 -> K1) (me2 : K2 -> K2 -> K2) (ev f0 : bool).
Variables (m1 : Z -> T1) (m2 : Z -> T2) (ne1 : T1 -> bool) (ne2 : T2 -> bool) (fl : bool).
Variable KV : K1 -> K2 -> Prop.
Hypothesis Hkey : forall i, cellsOf s i -> KV (key1 (m1 i)) (key2 (m2 i)).
Hypothesis L1 : forall x x' y y', KV x x' -> KV y y' -> lt1 x y = lt2 x' y'.
Hypothesis L2 : forall x x' y y', KV x x' -> KV y y' -> le1 x y = le2 x' y'.
Hypothesis L4 : ev = true -> forall x x' y y', KV x x' -> KV y y' -> KV (me1 x y) (me2 x' y').
Hypothesis Hne : forall i, cellsOf s i -> ne1 (m1 i) = ne2 (m2 i).
Let kd1 := Kind key1 lt1 le1 me1 ev f0.
Let kd2 := Kind key2 lt2 le2 me2 ev f0.

Lemma x_pair mg tr s1 :
  (forall k t, exec (body (Wd := pword pl) kd2 tn) M (cellsOf s) k (start (progF kd2 ne2 fl) m2 mg) t ->
     forall x w, In (Some (x, w)) (accesses t) -> cellsOf s x) ->
  texec (body (Wd := pword pl) kd1 tn) M (cellsOf s) tr (start (progF kd1 ne1 fl) m1 mg) s1 ->
  exists s2, texec (body (Wd := pword pl) kd2 tn) M (cellsOf s) tr (start (progF kd2 ne2 fl) m2 mg) s2 /\
  (forall i, cellsOf s i -> exists j, cellsOf s j /\ mem (sh s1) i = m1 j /\ mem (sh s2) i = m2 j) /\
  accesses s1 = accesses s2 /\ ngor (sh s1) = ngor (sh s2) /\ maxg (sh s1) = maxg (sh s2) /\ (returned s1 tt <-> returned s2 tt).
Proof.
  intros Hb H. set (V := fun x y => exists j, cellsOf s j /\ x = m1 j /\ y = m2 j).
  assert (HV : forall x y, V x y -> KV (key1 x) (key2 y)) by (intros x y (j & Hj & -> & ->); apply Hkey; exact Hj).
  assert (L3 : forall x y, V x y -> ne1 x = ne2 y) by (intros ? ? (i & Hi & -> & ->); auto).
  destruct (texec_simr (R := unit) (procR KV) V (body (Wd := pword pl) kd1 tn) (body (Wd := pword pl) kd2 tn)) with (Rg := cellsOf s) (M := M) (tr := tr)
    (s0 := start (progF kd1 ne1 fl) m1 mg) (t0 := start (progF kd2 ne2 fl) m2 mg) (s := s1) as (t & Ht & Hs).
  - intros p p' Hp. apply (x_body key1 key2 lt1 le1 lt2 le2 me1 me2 ev f0 V KV); assumption.
  - intros tr' t' Ht'. apply (Hb (length tr')). apply texec_exec. exact Ht'.
  - split; [|split; [constructor|repeat split; intros i Hi; exists i; cbn; auto]]. cbn [start main]. unfold progF. destruct fl; [|apply (x_sort key1 key2 lt1 le1 lt2 le2 me1 me2 ev f0 V KV); assumption].
    eapply xs_bind; [apply (x_prepass key1 key2 V KV HV); assumption|]. intros b b' <-. apply (x_sort key1 key2 lt1 le1 lt2 le2 me1 me2 ev f0 V KV); assumption.
  - exact H.
  - exists t. split; [exact Ht|]. assert (Ha := ssim_accesses _ _ _ _ _ Hs). assert (Hr := ssim_returned _ _ _ _ _ tt Hs).
    destruct Hs as (_ & _ & A & B & _ & D). split; [exact D|]. auto.
Qed.
End Pair.

(** Elements that know where they were, in between. *)
Section Moved.
Context {T1 T2 K1 K2 : Type}.
Variables (key1 : T1 -> K1) (key2 : T2 -> K2) (lt1 le1 : K1 -> K1 -> bool) (lt2 le2 : K2 -> K2 -> bool) (me1 : K1 -> K1 -> K1) (me2 : K2 -> K2 -> K2) (ev f0 : bool).
Variables (m1 : Z -> T1) (m2 : Z -> T2) (ne1 : T1 -> bool) (ne2 : T2 -> bool) (fl : bool).
Variable KV : K1 -> K2 -> Prop.
Hypothesis Hkey : forall i, cellsOf s i -> KV (key1 (m1 i)) (key2 (m2 i)).
Hypothesis L1 : forall x x' y y', KV x x' -> KV y y' -> lt1 x y = lt2 x' y'.
Hypothesis L2 : forall x x' y y', KV x x' -> KV y y' -> le1 x y = le2 x' y'.
Hypothesis L4 : ev = true -> forall x x' y y', KV x x' -> KV y y' -> KV (me1 x y) (me2 x' y').
Hypothesis Hne : forall i, cellsOf s i -> ne1 (m1 i) = ne2 (m2 i).
Hypothesis Hs : goSlice pl s.
Let kd1 := Kind key1 lt1 le1 me1 ev f0.
Let kd2 := Kind key2 lt2 le2 me2 ev f0.
Let kdp := Kind (fun j => key1 (m1 j)) lt1 le1 me1 ev f0.
Let nep := fun j => ne1 (m1 j).

Lemma x_moved mg tr s1 : 0 <= mg <= M ->
  (forall k t, exec (body (Wd := pword pl) kd2 tn) M (cellsOf s) k (start (progF kd2 ne2 fl) m2 mg) t ->
     forall x w, In (Some (x, w)) (accesses t) -> cellsOf s x) ->
  texec (body (Wd := pword pl) kd1 tn) M (cellsOf s) tr (start (progF kd1 ne1 fl) m1 mg) s1 ->
  exists s2 f, texec (body (Wd := pword pl) kd2 tn) M (cellsOf s) tr (start (progF kd2 ne2 fl) m2 mg) s2 /\ movedAlike f m1 m2 s s1 s2 /\
    accesses s1 = accesses s2 /\ ngor (sh s1) = ngor (sh s2) /\ maxg (sh s1) = maxg (sh s2) /\ (returned s1 tt <-> returned s2 tt) /\
    (returned s1 tt -> Permutation (contents f s) (contents (fun i => i) s)).
Proof.
  intros Hmg Hb H. set (C := kindCall kdp (fun j => j) nep fl). assert (HW := kind_safe kdp (fun j => j) nep fl Hs). change (safe tn C (fun w => Permutation (contents w s) (contents (fun j => j) s)) MInit) in HW.
  assert (Hfin : finite C) by exact (slice_finite pl (off s) (len s) Hpl Hs).
  edestruct (x_pair key1 (fun j => key1 (m1 j)) lt1 le1 lt1 le1 me1 me1 ev f0 m1 (fun j => j) ne1 nep fl eq) with (mg := mg) (tr := tr) (s1 := s1) as (sp & Hp & V1 & A1 & B1 & C1 & R1).
  - reflexivity.
  - intros ? ? ? ? <- <-. reflexivity.
  - intros ? ? ? ? <- <-. reflexivity.
  - intros _ ? ? ? ? <- <-. reflexivity.
  - reflexivity.
  - intros k t Ht x w Hx. exact (sad_in_bounds _ _ _ M (cCells C) _ Hfin _ _ mg MInit Hmg (or_intror eq_refl) HW k t _ x w Ht Hx eq_refl).
  - exact H.
  - edestruct (x_pair (fun j => key1 (m1 j)) key2 lt1 le1 lt2 le2 me1 me2 ev f0 (fun j => j) m2 nep ne2 fl KV) with (mg := mg) (tr := tr) (s1 := sp) as (s2 & H2 & V2 & A2 & B2 & C2 & R2);
      [exact Hkey|exact L1|exact L2|exact L4|exact Hne|exact Hb|exact Hp|].
    exists s2, (mem (sh sp)). split; [exact H2|]. split; [|split; [congruence|split; [congruence|split; [congruence|split; [tauto|]]]]].
    + intros i Hi. destruct (V1 i Hi) as (j & Hj & E1 & Ej). destruct (V2 i Hi) as (j' & Hj' & Ej' & E2). rewrite Ej in *. subst j'. auto.
    + intro Hr. apply R1 in Hr. apply texec_exec in Hp.
      exact (sad_return _ _ _ M (cCells C) _ Hfin _ _ mg MInit Hmg (or_intror eq_refl) HW _ sp tt Hp Hr).
Qed.
End Moved.

Lemma iff_bool a b : (a = true <-> b = true) -> a = b.
Proof. destruct a, b; intros [H1 H2]; auto. symmetry. auto. Qed.

Lemma ordered_alike e1 e2 m1 m2 tr s1 : sameSort e1 e2 -> typedSlice pl e1 m1 s -> typedSlice pl e2 m2 s -> orderedAlike e1 e2 m1 m2 s ->
  traced (typedCall pl tn opt e1 s m1) M tr s1 ->
  exists s2 f, traced (typedCall pl tn opt e2 s m2) M tr s2 /\ movedAlike f m1 m2 s s1 s2 /\
    accesses s1 = accesses s2 /\ ngor (sh s1) = ngor (sh s2) /\ maxg (sh s1) = maxg (sh s2) /\ (returned s1 tt <-> returned s2 tt) /\
    (returned s1 tt -> Permutation (contents f s) (contents (fun i => i) s)).
Proof.
  intros Hw [G1 F1] [G2 F2] Ho (mg & Hmg & H). assert (L0 : 0 <= len s) by apply G1.
  rewrite (forall_cells s _ _ L0) in F1. rewrite (forall_cells s _ _ L0) in F2.
  assert (O : odd e1 /\ odd e2) by (unfold odd, sameSort in *; cbn [In] in *; tauto). destruct O as [O1 O2].
  assert (Hb : forall k t, exec (cProcs (typedCall pl tn opt e2 s m2)) M (cellsOf s) k (start (cProg (typedCall pl tn opt e2 s m2)) m2 mg) t ->
    forall x w, In (Some (x, w)) (accesses t) -> cellsOf s x).
  { intros k t Ht. apply (any_elements pl tn opt e2 s m2 M k t Hpl Htn G2). apply reach_disturbed. exists mg. split; [exact Hmg|exact Ht]. }
  assert (Hle : forall i j, cellsOf s i -> cellsOf s j -> leb (kindOf pl e1) (key (kindOf pl e1) (m1 i)) (key (kindOf pl e1) (m1 j))
    = leb (kindOf pl e2) (key (kindOf pl e2) (m2 i)) (key (kindOf pl e2) (m2 j))).
  { intros i j Hi Hj. apply iff_bool. rewrite !leb_spec by auto. assert (X := Ho i j Hi Hj). assert (Y := Ho j i Hj Hi). tauto. }
  assert (Hlt : forall i j, cellsOf s i -> cellsOf s j -> ltb (kindOf pl e1) (key (kindOf pl e1) (m1 i)) (key (kindOf pl e1) (m1 j))
    = ltb (kindOf pl e2) (key (kindOf pl e2) (m2 i)) (key (kindOf pl e2) (m2 j))).
  { intros i j Hi Hj. apply iff_bool. rewrite !ltb_spec by auto. assert (X := Ho i j Hi Hj). assert (Y := Ho j i Hj Hi). tauto. }
  assert (Hne : forall i, cellsOf s i -> selfNe e1 (m1 i) = selfNe e2 (m2 i)).
  { intros i Hi. apply iff_bool. rewrite !selfNe_nan. apply (Ho i i Hi Hi). }
  set (KV := fun (k : keyT e1) (k' : keyT e2) => exists j, cellsOf s j /\ k = key (kindOf pl e1) (m1 j) /\ k' = key (kindOf pl e2) (m2 j)).
  assert (Hkey : forall i, cellsOf s i -> KV (key (kindOf pl e1) (m1 i)) (key (kindOf pl e2) (m2 i))) by (intros i Hi; exists i; auto).
  assert (L1 : forall x x' y y', KV x x' -> KV y y' -> ltb (kindOf pl e1) x y = ltb (kindOf pl e2) x' y')
    by (intros ? ? ? ? (i & Hi & -> & ->) (j & Hj & -> & ->); auto).
  assert (L2 : forall x x' y y', KV x x' -> KV y y' -> leb (kindOf pl e1) x y = leb (kindOf pl e2) x' y')
    by (intros ? ? ? ? (i & Hi & -> & ->) (j & Hj & -> & ->); auto).
  assert (L4 : false = true -> forall x x' y y', KV x x' -> KV y y' -> KV (mean (kindOf pl e1) x y) (mean (kindOf pl e2) x' y')) by discriminate.
  clearbody KV. clear F1 F2 Ho O1 O2 Hle Hlt.
  assert (X : In (e1, e2) [(TF4, TF4); (TF4, TF8); (TF8, TF4); (TF8, TF8); (TS, TS); (TS, TB); (TB, TS); (TB, TB)]).
  { destruct Hw as [[A B]|[A B]]; cbn in A, B; repeat (destruct A as [<-|A]); try contradiction; repeat (destruct B as [<-|B]); try contradiction; cbn; tauto. }
  clear Hw. cbn [In] in X.
  repeat (destruct X as [X|X]; [injection X as <- <-; cbn [kindOf key ltb leb mean] in Hkey, L1, L2, L4|]); [..|contradiction].
  1-4: destruct (x_moved _ _ _ _ _ _ _ _ false false m1 m2 _ _ true KV Hkey L1 L2 L4 Hne G2 mg tr s1 Hmg Hb H) as (s2 & f & A & B);
    exists s2, f; split; [exists mg; split; [exact Hmg|exact A]|exact B].
  all: destruct (x_moved _ _ _ _ _ _ _ _ false true m1 m2 _ _ false KV Hkey L1 L2 L4 Hne G2 mg tr s1 Hmg Hb H) as (s2 & f & A & B);
    exists s2, f; split; [exists mg; split; [exact Hmg|exact A]|exact B].
Qed.
End Top.

(** ** Specification: numbers of different types *)

(** The number that is compared: the value of an integer, or a length. *)
Definition numberOf (e : ety) : elem e -> Z :=
  match e return elem e -> Z with
  | TI4 => fun x : Z => intVal 32 x
  | TI8 => fun x : Z => intVal 64 x
  | TU4 | TU8 => fun x : Z => x
  | TLenS => fun x => Z.of_nat (length (sbytes x))
  | TLenB => fun x => alen x
  | _ => fun _ => 0
  end.

(** The types that are compared by numbers, and their numbers. *)
Definition holds (pl : plat) (e : ety) (x : Z) : Prop :=
  match e with
  | TI4 => - 2 ^ 31 <= x < 2 ^ 31
  | TI8 => - 2 ^ 63 <= x < 2 ^ 63
  | TU4 => 0 <= x < 2 ^ 32
  | TU8 => 0 <= x < 2 ^ 64
  | TLenS | TLenB => 0 <= x < intSize pl
  | _ => False
  end.
Definition number (e : ety) : Prop := In e [TI4; TI8; TU4; TU8; TLenS; TLenB].

(** sixb's functions for the mean of two numbers of the type. *)
Definition meanOf (pl : plat) (e : ety) : Z -> Z -> Z :=
  match e with TI4 => mI4 pl | TI8 => mI8 pl | TU4 => mU4 pl | TU8 => mU8 pl | _ => mI pl end.

(** They agree on numbers of both types. *)
Definition meansAgree (pl : plat) (e1 e2 : ety) : Prop :=
  forall x y, holds pl e1 x -> holds pl e1 y -> holds pl e2 x -> holds pl e2 y -> meanOf pl e1 x y = meanOf pl e2 x y.

(** ** Proofs *)

Section Numbers.
Variables (pl : plat) (tn : tuning).
Hypothesis Hpl : platOk pl.
Hypothesis Htn : tuningOk pl tn.
Variables (opt : Z) (s : slice) (M : Z).

Lemma number_holds e x : number e -> wellTyped pl e x -> holds pl e (numberOf e x).
Proof.
  intros Hn Hx. destruct e; cbn in Hn; try (exfalso; intuition discriminate); cbn [wellTyped holds numberOf] in *; try lia; unfold intVal.
  - assert (B := Z.mod_pos_bound (x + 2 ^ (32 - 1)) (2 ^ 32) ltac:(lia)). lia.
  - assert (B := Z.mod_pos_bound (x + 2 ^ (64 - 1)) (2 ^ 64) ltac:(lia)). lia.
Qed.

Lemma mean_holds e x y : holds pl e x -> holds pl e y -> holds pl e (meanOf pl e x y).
Proof.
  destruct Hpl as (_ & A & B & C & D & E & _). intros Hx Hy. destruct e; cbn [holds meanOf] in *; try contradiction;
    [specialize (A x y)|specialize (B x y)|specialize (C x y)|specialize (D x y)|specialize (E x y)|specialize (E x y)]; lia.
Qed.

Lemma numbers_alike e1 e2 m1 m2 tr s1 : number e1 -> number e2 -> meansAgree pl e1 e2 -> typedSlice pl e1 m1 s -> typedSlice pl e2 m2 s ->
  (forall i, cellsOf s i -> numberOf e1 (m1 i) = numberOf e2 (m2 i)) ->
  traced (typedCall pl tn opt e1 s m1) M tr s1 ->
  exists s2 f, traced (typedCall pl tn opt e2 s m2) M tr s2 /\ movedAlike f m1 m2 s s1 s2 /\
    accesses s1 = accesses s2 /\ ngor (sh s1) = ngor (sh s2) /\ maxg (sh s1) = maxg (sh s2) /\ (returned s1 tt <-> returned s2 tt) /\
    (returned s1 tt -> Permutation (contents f s) (contents (fun i => i) s)).
Proof.
  intros N1 N2 Ha [G1 F1] [G2 F2] Hv (mg & Hmg & H). assert (L0 : 0 <= len s) by apply G1.
  rewrite (forall_cells s _ _ L0) in F1. rewrite (forall_cells s _ _ L0) in F2.
  assert (Hb : forall k t, exec (cProcs (typedCall pl tn opt e2 s m2)) M (cellsOf s) k (start (cProg (typedCall pl tn opt e2 s m2)) m2 mg) t ->
    forall x w, In (Some (x, w)) (accesses t) -> cellsOf s x).
  { intros k t Ht. apply (any_elements pl tn opt e2 s m2 M k t Hpl Htn G2). apply reach_disturbed. exists mg. split; [exact Hmg|exact Ht]. }
  set (KV := fun k k' : Z => k = k' /\ holds pl e1 k /\ holds pl e2 k').
  assert (Hkey : forall i, cellsOf s i -> KV (numberOf e1 (m1 i)) (numberOf e2 (m2 i))).
  { intros i Hi. split; [apply Hv; exact Hi|]. split; apply number_holds; auto. }
  assert (L1 : forall x x' y y', KV x x' -> KV y y' -> (x <? y) = (x' <? y')) by (intros ? ? ? ? [<- _] [<- _]; reflexivity).
  assert (L2 : forall x x' y y', KV x x' -> KV y y' -> (x <=? y) = (x' <=? y')) by (intros ? ? ? ? [<- _] [<- _]; reflexivity).
  assert (L4 : true = true -> forall x x' y y', KV x x' -> KV y y' -> KV (meanOf pl e1 x y) (meanOf pl e2 x' y')).
  { intros _ x x' y y' (<- & A1 & A2) (<- & B1 & B2). split; [apply Ha; assumption|]. split; apply mean_holds; assumption. }
  clearbody KV. clear Ha Hv.
  destruct e1; cbn in N1; try (exfalso; intuition discriminate); destruct e2; cbn in N2; try (exfalso; intuition discriminate);
    clear N1 N2;
    match type of m1 with Z -> elem ?a => match type of m2 with Z -> elem ?b =>
      assert (Hk : forall i, cellsOf s i -> KV (key (kindOf pl a) (m1 i)) (key (kindOf pl b) (m2 i)));
      [intros i Hi; specialize (F1 i Hi); specialize (F2 i Hi); specialize (Hkey i Hi); cbn [kindOf key numberOf wellTyped] in *; rewrite ?signed_intVal by lia; exact Hkey|];
      destruct (x_moved pl tn Hpl Htn opt s M (key (kindOf pl a)) (key (kindOf pl b)) Z.ltb Z.leb Z.ltb Z.leb (meanOf pl a) (meanOf pl b) true false m1 m2
        (fun _ => false) (fun _ => false) false KV Hk L1 L2 L4 (fun _ _ => eq_refl) G2 mg tr s1 Hmg Hb H) as (s2 & f & A & B);
      exists s2, f; split; [exists mg; split; [exact Hmg|exact A]|exact B]
    end end.
Qed.
End Numbers.
