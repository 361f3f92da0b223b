(** * Large collections are shared with a goroutine *)

From Coq Require Import List ZArith Lia Bool Permutation.
From Verif Require Import Lang SeqLogic SeqAdequacy Base Scalar ScalarFacts Typed Kinds Spec Lsw Calls SeqOps TypedPart TypedShort TypedLong TypedSort
  KindsFacts TypedApi Guarantee TopFacts Witness Examples.
Import ListNotations.
Open Scope Z_scope.
Local Arguments Z.mul : simpl never.
Local Arguments Z.add : simpl never.
Local Arguments Z.sub : simpl never.

Lemma kept_reach {T} (C : call T) m M k s : 0 <= m -> kept C m M k s -> reach C M k s.
Proof.
  intros Hm H. induction H as [mg0 Hmg|n s s' H IH Hp|n s s' H IH He Hmg].
  - exists mg0. split; [lia|constructor].
  - destruct IH as (mg & Hmg & Hx). exists mg. split; [exact Hmg|]. eapply exec_prog; eassumption.
  - destruct IH as (mg & Hmg' & Hx). exists mg. split; [exact Hmg'|]. eapply exec_env; eassumption.
Qed.

Section Sure.
Context {P T : Type}.
Variable body : P -> cmd P T unit.
Variable lo : Z.

(** While MaxGor is at least [lo]: when [c] returns within [n] steps, not as in [Q], it has made a
    channel and started a goroutine; [ch]: a channel has been made. *)
Fixpoint sure (n : nat) (ch : bool) {A} (Q : bool -> A -> Prop) (c : cmd P T A) : Prop :=
  match n with
  | O => True
  | S n =>
    match view c with
    | HRet a => Q ch a
    | HPanic => True
    | HTau c' => sure n ch Q c'
    | HRead _ k => forall x, sure n ch Q (k x)
    | HWrite _ _ k => sure n ch Q k
    | HCall p k => sure n ch Q (k (body p))
    | HFork _ _ => ch = true
    | HLoadMax k => forall z, lo <= z -> sure n ch Q (k z)
    | HLoadGor k => forall z, sure n ch Q (k z)
    | HAddGor _ k => forall z, sure n ch Q (k z)
    | HMakeSv k => sure n true Q k
    | HSend _ _ => True
    | HRecv _ => True
    end
  end.

Lemma sure_any n : forall A (c : cmd P T A), sure n true (fun ch _ => ch = true) c.
Proof. induction n as [|n IH]; intros A c; cbn [sure]; [exact I|]. destruct (view c); auto. Qed.

Lemma sure_view n ch {A} (Q : bool -> A -> Prop) (c d : cmd P T A) : view c = view d -> sure n ch Q c -> sure n ch Q d.
Proof. intros E H. destruct n; cbn [sure] in *; [exact I|]. rewrite <- E. exact H. Qed.

Lemma sure_bind {A B} (Q1 : bool -> A -> Prop) (Q : bool -> B -> Prop) (k : A -> cmd P T B) :
  (forall m ch a, Q1 ch a -> sure m ch Q (k a)) ->
  forall n ch c, sure n ch Q1 c -> sure n ch Q (Bind c k).
Proof.
  intro Hk. induction n as [|n IH]; intros ch c H; [exact I|].
  cbn [sure] in H. destruct (view c) eqn:E;
    [apply (sure_view _ _ _ (k a)); [cbn [view]; rewrite E; reflexivity|apply Hk; exact H]|..];
    cbn [sure view]; rewrite E; cbn [hcont]; auto.
Qed.

Lemma sure_loop {A S} ch (Q : bool -> A -> Prop) (x : S) (b : S -> cmd P T (S + A)) :
  (forall n, sure n ch (fun _ _ => False) (b x)) -> forall n, sure n ch Q (Loop x b).
Proof.
  intros H [|n]; [exact I|]. cbn [sure view]. eapply sure_bind; [|apply H]. intros m ch' a [].
Qed.

(** Perhaps after some steps on the cells in [Rg], whose contents are known. *)
Variable Rg : Z -> Prop.
Inductive pending {A} (c : cmd P T A) (v : Z -> T) : Prop :=
| pend_sure : (forall n, sure n false (fun _ _ => False) c) -> pending c v
| pend_tau c' : view c = HTau c' -> pending c' v -> pending c v
| pend_read i k : view c = HRead i k -> Rg i -> pending (k (v i)) v -> pending c v
| pend_write i x k : view c = HWrite i x k -> Rg i -> pending k (upd v i x) -> pending c v
| pend_call p k : view c = HCall p k -> pending (k (body p)) v -> pending c v.

Lemma pend_view {A} (c d : cmd P T A) v : view c = view d -> pending c v -> pending d v.
Proof.
  intros V H. destruct H as [H|c' E H|i k' E Hi H|i y k' E Hi H|p k' E H]; try rewrite V in E;
    [apply pend_sure; intro n; exact (sure_view _ _ _ _ _ V (H n))|eapply pend_tau|eapply pend_read|eapply pend_write|eapply pend_call]; eassumption.
Qed.

Lemma pend_ext {A} (c : cmd P T A) v : pending c v -> forall v', (forall i, Rg i -> v' i = v i) -> pending c v'.
Proof.
  induction 1 as [c v H|c v c' E H IH|c v i k E Hi H IH|c v i x k E Hi H IH|c v p k E H IH]; intros v' Hv.
  - apply pend_sure; exact H.
  - eapply pend_tau; [exact E|auto].
  - eapply pend_read; [exact E|exact Hi|]. rewrite (Hv i Hi). auto.
  - eapply pend_write; [exact E|exact Hi|]. apply IH. intros j Hj. unfold upd. destruct (j =? i); auto.
  - eapply pend_call; [exact E|auto].
Qed.

Lemma pend_bind {A B} D (Rd Wr : Z -> Prop) (k : A -> cmd P T B) n : (forall i, Rd i -> Rg i) -> (forall i, Wr i -> Rg i) ->
  forall (c : cmd P T A) v, swp body D n Rd Wr (fun a _ v' => pending (k a) v') c v -> pending (Bind c k) v.
Proof.
  intros HR HW. induction n as [|n IH]; intros c v H; rewrite swp_eq in H; destruct H as [_ H]; destruct (view c) eqn:Ev; try contradiction;
    try (apply (pend_view (k a)); [cbn [view]; rewrite Ev; reflexivity|]; exact H).
  - eapply pend_tau; [cbn [view]; rewrite Ev; reflexivity|]. apply IH; exact H.
  - eapply pend_read; [cbn [view]; rewrite Ev; reflexivity|apply HR, H|]. apply IH, H.
  - eapply pend_write; [cbn [view]; rewrite Ev; reflexivity|apply HW, H|]. apply IH, H.
  - eapply pend_call; [cbn [view]; rewrite Ev; reflexivity|]. apply IH; exact H.
Qed.

(** A state of the call. *)
Definition toCome {R} (st : st P T R) : Prop :=
  thr st <> [] /\ 1 <= chans (sh st) \/
  exists c s, st = St c [] s /\ lo <= maxg s /\ 0 <= chans s /\
    (pending c (mem s) \/ 1 <= chans s /\ forall n, sure n true (fun _ _ => False) c).

Lemma chans_local {A} (c : cmd P T A) s c' s' fs : exec_local body c s = Some (c', s', fs) -> chans s <= chans s' <= chans s + 1.
Proof. unfold exec_local. destruct (view c); intro E; inversion E; subst; cbn [chans]; lia. Qed.

Lemma thr_grows {R} (a b : st P T R) : pstep body a b -> 1 <= chans (sh a) -> thr a <> [] -> thr b <> [] /\ 1 <= chans (sh b).
Proof.
  intros H Hc Ht. assert (N : forall X (l1 : list X) x l2, l1 ++ x :: l2 <> []) by (intros X l1 x l2 E; symmetry in E; exact (app_cons_not_nil _ _ _ E)).
  destruct H as [s s' Hi|m ts s k z Ev|m l1 c l2 s k z Ev].
  - destruct Hi; cbn [thr sh] in *; try match goal with H : exec_local _ _ _ = Some _ |- _ => apply chans_local in H end;
      (split; [|lia]); try apply N. destruct ts; [contradiction|discriminate].
  - auto.
  - split; [apply N|exact Hc].
Qed.

Lemma no_thr {X} l1 (x : X) l2 : [] <> l1 ++ x :: l2.
Proof. apply app_cons_not_nil. Qed.

Lemma toCome_step {R} (a b : st P T R) : toCome a -> pstep body a b -> toCome b.
Proof.
  intros [[Ht Hc]|(c & s & -> & Hg & Hc & H)] Hp.
  { left. eapply thr_grows; eassumption. }
  assert (Hone : forall m' s' fs, exec_local body c s = Some (m', s', fs) -> toCome (St m' ([] ++ fs) s')).
  { intros m' s' fs Hl.
    assert (Hmg : maxg s' = maxg s) by (unfold exec_local in Hl; destruct (view c); inversion Hl; reflexivity).
    assert (Hch := chans_local _ _ _ _ _ Hl).
    assert (Sure : forall ch, (forall n, sure n ch (fun _ _ => False) c) -> (ch = true -> 1 <= chans s) ->
              toCome (St m' ([] ++ fs) s')).
    { intros ch Hs Hs1. assert (Hs' := fun n => Hs (S n)). cbn [sure] in Hs'. unfold exec_local in Hl.
      assert (Go : forall ch' : bool, (ch' = true -> 1 <= chans s') -> (forall n, sure n ch' (fun _ _ => False) m') -> toCome (St m' ([] ++ []) s')).
      { intros ch' H1 H2. right. exists m', s'. split; [reflexivity|]. split; [lia|]. split; [lia|].
        destruct ch'; [right; split; [auto|exact H2]|left; apply pend_sure; exact H2]. }
      destruct (view c) eqn:Ev; inversion Hl; subst; cbn [chans] in *; try (eapply (Go ch); [auto|]; intro n; apply Hs'; fail).
      - left. split; [discriminate|]. cbn [sh chans]. specialize (Hs' O). auto.
      - eapply (Go ch); [auto|]. intro n. apply Hs'. exact Hg.
      - eapply (Go true); [intros _; cbn [chans]; lia|]. exact Hs'. }
    destruct H as [H|[H1 H2]]; [|apply (Sure true); auto].
    destruct H as [H|c' E H|i k E Hi H|i x k E Hi H|p k E H]; [apply (Sure false); [exact H|discriminate]|..];
      unfold exec_local in Hl; rewrite E in Hl; inversion Hl; subst; right; eexists _, _; (split; [reflexivity|]); (split; [exact Hg|]); (split; [exact Hc|]); left; exact H. }
  inversion Hp as [a' b' Hi|m ts s' k z Ev|m l1 c0 l2 s' k z Ev Ea]; subst.
  - inversion Hi; subst; try solve [match goal with H : _ ++ _ :: _ = [] |- _ => symmetry in H; apply no_thr in H; destruct H
        | H : [] = _ ++ _ :: _ |- _ => apply no_thr in H; destruct H end].
    match goal with H : exec_local _ _ _ = Some _ |- _ => exact (Hone _ _ _ H) end.
  - right. eexists _, _. split; [reflexivity|]. split; [exact Hg|]. split; [exact Hc|].
    assert (Stale : forall ch, (forall n, sure n ch (fun _ _ => False) c) -> forall n, sure n ch (fun _ _ => False) (k z)).
    { intros ch H1 n. specialize (H1 (S n)). cbn [sure] in H1. rewrite Ev in H1. apply H1. }
    destruct H as [H|[H1 H2]]; [left|right; split; [exact H1|apply Stale; exact H2]].
    destruct H as [H|c' E H|i k' E Hi H|i x k' E Hi H|p k' E H]; try (rewrite Ev in E; discriminate).
    apply pend_sure. apply Stale. exact H.
  - match goal with H : _ ++ _ :: _ = [] |- _ => symmetry in H; apply no_thr in H; destruct H
        | H : [] = _ ++ _ :: _ |- _ => apply no_thr in H; destruct H end.
Qed.

Lemma toCome_env {R} M (a b : st P T R) : toCome a -> estep M Rg a b -> lo <= maxg (sh b) -> toCome b.
Proof.
  intros H He Hm. destruct He as [m ts s mem' mg' Hmg Hmem]. destruct H as [[Ht Hc]|(c & s' & E & Hg & Hc & H)].
  - left. split; assumption.
  - inversion E; subst. right. eexists _, _. split; [reflexivity|]. split; [exact Hm|]. split; [exact Hc|].
    destruct H as [H|[H1 H2]]; [left|right; split; [exact H1|exact H2]]. cbn [mem]. eapply pend_ext; [exact H|exact Hmem].
Qed.

Lemma toCome_returned {R} (a : st P T R) r : toCome a -> returned a r -> thr a <> [] /\ 1 <= chans (sh a).
Proof.
  intros [H|(c & s & -> & _ & _ & H)] Hr; [exact H|]. exfalso. unfold returned in Hr. cbn [main] in Hr.
  destruct H as [[H|c' E H|i k' E Hi H|i x k' E Hi H|p k' E H]|[_ H]]; try (rewrite Hr in E; discriminate);
    specialize (H 1%nat); cbn [sure] in H; rewrite Hr in H; exact H.
Qed.

End Sure.

Lemma kept_shared {T} (C : call T) m M k st : kept C m M k st -> pending (cProcs C) m (cCells C) (cProg C) (cInit C) ->
  returned st tt -> thr st <> [] /\ 1 <= chans (sh st).
Proof.
  intros Hk Hp Hr. apply (toCome_returned (cProcs C) m (cCells C) st tt); [|exact Hr]. clear Hr.
  induction Hk as [mg0 Hmg|n s s' H IH Hs|n s s' H IH He Hmg].
  - right. eexists _, _. split; [reflexivity|]. cbn [maxg chans mem]. split; [lia|]. split; [lia|]. left. exact Hp.
  - eapply toCome_step; eassumption.
  - eapply toCome_env; eassumption.
Qed.

(** ** The two concurrent sorters *)

Section Typed.
Variables (pl : plat) (tn : tuning) (e : ety).
Hypothesis Hpl : platOk pl.
Hypothesis Htn : tuningOk pl tn.
Local Existing Instance pword.
Notation kd := (kindOf pl e).

Lemma sure_sort lo s : 2 <= lo -> 2 * (maxRec kd tn + 1) <= len s ->
  forall n, sure (procs pl tn e) lo n false (fun _ _ => False) (sort kd tn (mI pl) s).
Proof.
  intros Hlo Hs n. unfold sort. rewrite (minConc_plain kd tn (tuning_ins kd tn Htn) (tuning_rec kd tn Htn) (tuning_rec2 kd tn Htn)).
  destruct (Z.ltb_spec (len s) (2 * (maxRec kd tn + 1))) as [C|C]; [lia|].
  apply sure_bind with (Q1 := fun _ single => single = false).
  2:{ destruct n as [|[|n]]; cbn [sure view]; auto. intros z Hz. apply Z.leb_gt. lia. }
  intros m ch a ->. destruct m as [|m]; [exact I|]. unfold sortConc. cbn [sure view].
  eapply sure_bind with (Q1 := fun _ _ => False); [intros ? ? ? []|].
  apply sure_loop. intro i. eapply sure_bind with (Q1 := fun _ _ => False); [intros ? ? ? []|].
  unfold partCon. eapply sure_bind; [|apply sure_any]. cbv beta. intros j ch1 pv ->. cbv zeta.
  eapply sure_bind; [|apply sure_any]. cbv beta. intros j' ch2 q ->.
  destruct j' as [|j']; [exact I|]. reflexivity.
Qed.

End Typed.

Section Lesswap.
Context {T : Type}.
Variables (pl : plat) (tn : tuning) (lt : T -> T -> bool) (cap : Z).
Hypothesis Hpl : platOk pl.
Hypothesis Htn : tuningOk pl tn.
Local Existing Instance pword.

Lemma sure_lsw lo n : 2 <= lo -> n < intSize pl -> 2 * (maxLenRecFC tn + 1) <= n ->
  forall m, sure (lswBody lt cap tn (mI pl)) lo m false (fun _ _ => False) (lswSort lt cap tn (mI pl) n).
Proof.
  intros Hlo Hb Hn m. assert (HI := intSize_wq pl (proj1 Hpl)). destruct Htn as (T1 & T2 & T3 & T4 & T5).
  unfold lswSort, lswConc. rewrite !iw_small by lia.
  destruct (Z.leb_spec (n - 1) (2 * maxLenRecFC tn)) as [C|C]; [lia|].
  apply sure_bind with (Q1 := fun _ single => single = false).
  2:{ destruct m as [|[|m]]; cbn [sure view]; auto. intros z Hz. apply Z.leb_gt. lia. }
  intros i ch a ->. destruct i as [|i]; [exact I|]. unfold lswSortConc. cbn [sure view].
  eapply sure_bind with (Q1 := fun _ _ => False); [intros ? ? ? []|].
  apply sure_loop. intro j. eapply sure_bind with (Q1 := fun _ _ => False); [intros ? ? ? []|].
  unfold lswPartCon. eapply sure_bind; [|apply sure_any]. cbv beta. intros j1 ch1 pv ->. cbv zeta.
  destruct j1 as [|j1]; [exact I|]. reflexivity.
Qed.

End Lesswap.

(** ** NaNs do not count *)

Definition plain {T} (ne : T -> bool) (l : list T) : nat := length (filter (fun x => negb (ne x)) l).

Lemma plain_perm {T} (ne : T -> bool) l l' : Permutation l l' -> plain ne l = plain ne l'.
Proof.
  unfold plain. induction 1 as [|x l l' H IH|x y l|l1 l2 l3 H1 IH1 H2 IH2]; cbn [filter]; try congruence.
  - destruct (negb (ne x)); cbn [length]; lia.
  - destruct (negb (ne x)), (negb (ne y)); reflexivity.
Qed.

Lemma plain_app {T} (ne : T -> bool) l l' : plain ne (l ++ l') = (plain ne l + plain ne l')%nat.
Proof. unfold plain. rewrite filter_app, app_length. reflexivity. Qed.

Lemma plain_all {T} (ne : T -> bool) l : Forall (fun x => ne x = false) l -> plain ne l = length l.
Proof. unfold plain. induction 1 as [|x l E H IH]; cbn [filter length]; [reflexivity|]. rewrite E. cbn [negb length]. lia. Qed.

Lemma plain_none {T} (ne : T -> bool) l : Forall (fun x => ne x = true) l -> plain ne l = O.
Proof. unfold plain. induction 1 as [|x l E H IH]; cbn [filter length]; [reflexivity|]. rewrite E. exact IH. Qed.

Lemma prePost_plain {T} (ne : T -> bool) opt s v0 s' v : 0 <= len s -> prePost ne s v0 s' v ->
  (opt = 1 -> off s' = off s) -> (opt = -1 -> off s' + len s' = off s + len s) ->
  opt = 1 \/ opt = -1 \/ (forall i, reg s i -> ne (v0 i) = false) ->
  Z.of_nat (plain ne (contents v0 s)) = len s'.
Proof.
  intros H0 (Hp & Hin & Hl & Hout & Hno) HO1 HO2 Hopt.
  assert (Ep : plain ne (contents v0 s) = plain ne (contents v s)).
  { apply plain_perm. rewrite !contents_seg. apply Permutation_sym, permR_seg, Hp. }
  assert (In' : forall o n, (forall i, o <= i < o + n -> reg s' i) -> Forall (fun x => ne x = false) (contents v (Slice o n))).
  { intros o n H. apply contents_forall. unfold cellsOf. cbn [off len]. intros i Hi. apply Hin, H, Hi. }
  assert (Out : forall o n, (forall i, o <= i < o + n -> reg s i /\ ~ reg s' i) -> Forall (fun x => ne x = true) (contents v (Slice o n))).
  { intros o n H. apply contents_forall. unfold cellsOf. cbn [off len]. intros i Hi. apply Hout; apply H, Hi. }
  rewrite Ep. destruct Hopt as [Ho|[Ho|Ho]].
  - specialize (HO1 Ho). rewrite (contents_split v s (len s')) by lia. rewrite plain_app, plain_all, plain_none.
    + rewrite contents_seg, seg_length. cbn [off len]. lia.
    + apply Out. unfold reg. lia.
    + apply In'. unfold reg. lia.
  - specialize (HO2 Ho). rewrite (contents_split v s (len s - len s')) by lia. rewrite plain_app, plain_none, plain_all.
    + rewrite contents_seg, seg_length. cbn [off len]. lia.
    + apply In'. unfold reg. lia.
    + apply Out. unfold reg. lia.
  - destruct (Hno Ho) as [-> _]. rewrite plain_all.
    + rewrite contents_seg, seg_length. lia.
    + destruct s as [o n]. apply In'. auto.
Qed.

Lemma plain_le {T} (ne : T -> bool) l : (plain ne l <= length l)%nat.
Proof. unfold plain. induction l as [|x l IH]; cbn [filter length]; [lia|]. destruct (negb (ne x)); cbn [length]; lia. Qed.

Section Nans.
Variables (pl : plat) (tn : tuning) (e : ety).
Hypothesis Hpl : platOk pl.
Hypothesis Htn : tuningOk pl tn.
Local Existing Instance pword.
Notation kd := (kindOf pl e).
Let LW : laws kd (okKey pl e) := laws_all pl e Hpl.

Lemma plain_many l xs ns : Permutation l (xs ++ ns) -> Forall (fun x => ~ nan e x) xs -> (length xs <= plain (selfNe e) l)%nat.
Proof.
  intros H Hn. rewrite (plain_perm _ _ _ H), plain_app, (plain_all _ xs); [lia|].
  eapply Forall_impl; [|exact Hn]. intros x Hx. cbv beta in Hx. rewrite <- selfNe_nan in Hx. destruct (selfNe e x); congruence.
Qed.

Lemma plain_few l xs ns : Permutation l (xs ++ ns) -> Forall (nan e) ns -> (plain (selfNe e) l <= length xs)%nat.
Proof.
  intros H Hn. rewrite (plain_perm _ _ _ H), plain_app, (plain_none _ ns).
  - assert (G := plain_le (selfNe e) xs). lia.
  - eapply Forall_impl; [|exact Hn]. intros x Hx. apply selfNe_nan. exact Hx.
Qed.

Lemma limit_typed opt s m0 : recLimit tn (typedCall pl tn opt e s m0) = 2 * (maxRec kd tn + 1).
Proof. unfold recLimit, maxRec. cbn [typedCall cFC]. destruct e; reflexivity. Qed.

(** The prepass, and what it leaves to be sorted. *)
Lemma pre_plain opt s m0 D (Q : slice -> nat -> (Z -> elem e) -> Prop) n : typedSlice pl e m0 s -> sortable e opt (contents m0 s) ->
  cPre (len s) + Z.of_nat n <= Z.of_nat (Z.to_nat (cPre (len s)) + n) ->
  (forall s' m v, (n <= m)%nat -> Z.of_nat (plain (selfNe e) (contents m0 s)) = len s' ->
     (forall i, reg s' i -> reg s i) -> okOn kd (okKey pl e) s' v -> 0 <= len s' <= len s -> Q s' m v) ->
  swp (procs pl tn e) D (Z.to_nat (cPre (len s)) + n) (reg s) (reg s) Q (prepass (selfNe e) opt opt s) m0.
Proof.
  intros [[H0 Hb] Hty] Hso Hn HQ. rewrite contents_forall in Hty.
  assert (Hopt : opt = 1 \/ opt = -1 \/ (forall i, reg s i -> selfNe e (m0 i) = false)).
  { destruct Hso as [H|[H|H]]; [auto|auto|]. right; right. rewrite contents_forall in H. intros i Hi. specialize (H i Hi). cbv beta in H.
    rewrite <- selfNe_nan in H. destruct (selfNe e (m0 i)); congruence. }
  eapply swp_apply; [apply (swp_prepass (procs pl tn e) (selfNe e) opt s m0 D H0 Hopt)|lia|lia|auto|auto|].
  cbv beta. intros s' m v [Hpre [HO1 HO2]] _ Hm.
  assert (Hpl' := prePost_plain (selfNe e) opt s m0 s' v H0 Hpre HO1 HO2 Hopt).
  destruct Hpre as (Hp & Hin & Hl & _). apply HQ; [lia|exact Hpl'|intros i Hi; apply Hin, Hi| |exact Hl].
  intros i Hi. destruct (Hin i Hi) as [Hi' Hne]. apply okKey_of.
  - apply (permR_forall _ _ _ _ (wellTyped pl e) Hp); [|exact Hi']. intros j Hj. apply Hty. exact Hj.
  - rewrite <- selfNe_nan. congruence.
Qed.

Lemma swp_sort_alone s v : len s < 2 * wq -> 0 <= len s -> okOn kd (okKey pl e) s v -> len s < 2 * (maxRec kd tn + 1) ->
  swp (procs pl tn e) (Z.to_nat (Z.log2 (len s) + 2)) (Z.to_nat (cSort (len s) + cIns (len s) + 4)) (reg s) (reg s) (fun _ _ _ => True)
    (sort kd tn (mI pl) s) v.
Proof.
  intros Hb H0 Hok Hs. assert (HIns := tuning_ins kd tn Htn). assert (HRec := tuning_rec kd tn Htn). assert (HRec2 := tuning_rec2 kd tn Htn).
  assert (L0 := Z.log2_nonneg (len s)). assert (C0 := cSort_pos (len s)). assert (C1 := cIns_pos (len s) H0).
  unfold sort. rewrite (minConc_plain kd tn HIns HRec HRec2).
  destruct (Z.ltb_spec (len s) (2 * (maxRec kd tn + 1))) as [C|C]; [|lia].
  apply swp_bind, swp_ret. unfold maxRec, maxIns in *.
  destruct (Z.ltb_spec (if fc kd then maxLenRecFC tn else maxLenRec tn) (len s)) as [L|L].
  { replace (Z.to_nat (Z.log2 (len s) + 2)) with (S (Z.to_nat (Z.log2 (len s) + 1))) by lia. apply swp_call; [lia|].
    eapply swp_apply; [apply (swp_long kd tn (okKey pl e) LW HIns HRec s v); assumption|lia|lia|auto|auto|].
    cbv beta. intros _ m v' _ _ Hm. split; [lia|]. apply swp_ret. exact I. }
  destruct (Z.ltb_spec (if fc kd then maxLenInsFC tn else maxLenIns tn) (len s)) as [L'|L'].
  { replace (Z.to_nat (Z.log2 (len s) + 2)) with (S (Z.to_nat (Z.log2 (len s) + 1))) by lia. apply swp_call; [lia|].
    eapply swp_apply; [apply (swp_short kd tn (okKey pl e) LW HIns s v); assumption|lia|lia|auto|auto|].
    cbv beta. intros _ m v' _ _ Hm. split; [lia|]. apply swp_ret. exact I. }
  eapply swp_apply; [apply (swp_insertion (procs pl tn e) (ltT kd) (fun x => okKey pl e (key kd x))
        (okT_asym kd (okKey pl e) LW) (okT_trans kd (okKey pl e) LW) s v O H0); intros i Hi; apply Hok; exact Hi|lia|lia|auto|auto|].
  auto.
Qed.

Theorem shared_typed opt s m0 xs ns M k st : typedSlice pl e m0 s -> sortable e opt (contents m0 s) ->
  Permutation (contents m0 s) (xs ++ ns) -> Forall (fun x => ~ nan e x) xs ->
  recLimit tn (typedCall pl tn opt e s m0) <= Z.of_nat (length xs) ->
  kept (typedCall pl tn opt e s m0) 2 M k st -> returned st tt -> (1 <= length (thr st))%nat /\ chans (sh st) = 1.
Proof.
  intros Hs Hso Hx Hnn Hlim Hk Hr. set (C := typedCall pl tn opt e s m0) in *.
  assert (Hp : pending (cProcs C) 2 (cCells C) (cProg C) (cInit C)).
  { unfold C in Hlim |- *. rewrite limit_typed in Hlim. cbn [typedCall cProcs cCells cProg cInit]. unfold sortProg, sortLive.
    assert (G := plain_many _ _ _ Hx Hnn).
    destruct (isFloat e) eqn:Ef.
    - eapply pend_bind; [| |apply (pre_plain opt s m0 O _ O Hs Hso)].
      + intros i Hi. exact Hi.
      + intros i Hi. exact Hi.
      + lia.
      + intros s' m v _ Es' _ _ _. apply pend_sure. apply sure_sort; [exact Htn|lia|lia].
    - apply pend_sure. apply sure_sort; [exact Htn|lia|].
      assert (GL := plain_le (selfNe e) (contents m0 s)). rewrite contents_seg, seg_length in GL. rewrite contents_seg in G. assert (0 <= len s) by apply Hs. lia. }
  destruct (kept_shared C 2 M k st Hk Hp Hr) as [H1 H2].
  assert (H3 := g_chans pl tn Hpl Htn C (call_typed pl tn e opt s m0 Hs Hso) M k st (kept_reach C 2 M k st ltac:(lia) Hk)).
  split; [destruct (thr st); [contradiction|cbn; lia]|lia].
Qed.

Theorem alone_typed opt s m0 xs ns M k st : typedSlice pl e m0 s -> sortable e opt (contents m0 s) ->
  Permutation (contents m0 s) (xs ++ ns) -> Forall (nan e) ns ->
  Z.of_nat (length xs) < recLimit tn (typedCall pl tn opt e s m0) ->
  reach (typedCall pl tn opt e s m0) M k st -> thr st = [] /\ chans (sh st) = 0.
Proof.
  intros Hs Hso Hx Hnn Hlim (mg & Hmg & He). rewrite limit_typed in Hlim. cbn [typedCall cProcs cCells cProg cInit] in He.
  assert (Hb : len s < 2 * wq). { destruct Hs as [[_ Hb] _]. rewrite (intSize_eq pl) in Hb. lia. }
  assert (H0 : 0 <= len s) by apply Hs.
  assert (G := plain_few _ _ _ Hx Hnn).
  assert (HS : exists D N, swp (procs pl tn e) D N (cellsOf s) (cellsOf s) (fun _ _ _ => True) (sortProg pl tn opt e s) m0).
  { unfold sortProg, sortLive. destruct (isFloat e) eqn:Ef.
    - set (N := Z.to_nat (cSort (len s) + cIns (len s) + 4)). set (D := Z.to_nat (Z.log2 (len s) + 2)).
      exists D, (Z.to_nat (cPre (len s)) + N)%nat. apply swp_bind. apply (pre_plain opt s m0 D _ N Hs Hso); [unfold cPre; lia|].
      intros s' m v Hm Es' Hin Hok Hl.
      eapply swp_apply; [apply (swp_sort_alone s' v); [lia|lia|exact Hok|lia]| | |exact Hin|exact Hin|auto].
      + unfold D. assert (Z.log2 (len s') <= Z.log2 (len s)) by (apply Z.log2_le_mono; lia). lia.
      + unfold N in Hm. assert (cSort (len s') <= cSort (len s)) by (unfold cSort; nia).
        assert (cIns (len s') <= cIns (len s)) by (unfold cIns; nia). assert (C0 := cSort_pos (len s')). assert (C1 := cIns_pos (len s') ltac:(lia)). lia.
    - eexists _, _. apply swp_sort_alone; [exact Hb|exact H0| |].
      + destruct Hs as [_ Hty]. rewrite contents_forall in Hty. intros i Hi. apply okKey_of; [apply Hty, Hi|]. rewrite <- selfNe_nan.
        destruct e; cbn [selfNe isFloat] in *; discriminate.
      + assert (E : plain (selfNe e) (contents m0 s) = length (contents m0 s)).
        { apply plain_all. apply contents_forall. intros i Hi. destruct e; cbn [selfNe isFloat] in *; try discriminate; reflexivity. }
        rewrite E, contents_seg, seg_length in G. lia. }
  destruct HS as (D & N & HS).
  destruct (seq_safe _ _ _ M _ _ _ _ _ mg HS k st He) as (H1 & H2 & _). auto.
Qed.

End Nans.

Theorem shared_lsw pl tn {T} (lt lq : T -> T -> bool) cap n m0 M k st : platOk pl -> tuningOk pl tn ->
  consistent lt lq -> 0 <= n <= cap -> 11 * n + 18 < 10 * intSize pl ->
  recLimit tn (lswCallBy pl tn lt lq cap n m0) <= n ->
  kept (lswCallBy pl tn lt lq cap n m0) 2 M k st -> returned st tt -> (1 <= length (thr st))%nat /\ chans (sh st) = 1.
Proof.
  intros Hpl Htn Hc Hn Hb Hlim Hk Hr. set (C := lswCallBy pl tn lt lq cap n m0) in *.
  assert (Hp : pending (cProcs C) 2 (cCells C) (cProg C) (cInit C)).
  { apply pend_sure. apply sure_lsw; [exact Hpl|exact Htn|lia|lia|exact Hlim]. }
  destruct (kept_shared C 2 M k st Hk Hp Hr) as [H1 H2].
  assert (H3 := g_chans pl tn Hpl Htn C (call_by pl tn T lt lq cap n m0 Hc Hn Hb) M k st (kept_reach C 2 M k st ltac:(lia) Hk)).
  split; [destruct (thr st); [contradiction|cbn; lia]|lia].
Qed.

(** ** Cases *)

(** Calls return while MaxGor is kept. *)
Lemma kept_finish pl tn T (C : call T) m M : platOk pl -> tuningOk pl tn -> sortCall pl tn C -> 0 <= m <= M ->
  exists k s, kept C m M k s /\ returned s tt.
Proof.
  intros Hpl Htn HC Hm. set (B := 100 * cLen C * cLen C + 6 * cLen C + 20).
  assert (G : forall n k s, kept C m M k s -> B - Z.of_nat k < Z.of_nat n -> exists k' s', kept C m M k' s' /\ returned s' tt).
  { induction n as [|n IH]; intros k s Hk Hn; assert (Hr := kept_reach C m M k s ltac:(lia) Hk).
    - assert (H := g_steps pl tn Hpl Htn C HC M k s Hr). fold B in H. lia.
    - destruct (g_progress pl tn Hpl Htn C HC M k s Hr) as [[[] Hret]|[s1 Hs]]; [exists k, s; auto|].
      apply (IH (S k) s1); [eapply kept_prog; eassumption|lia]. }
  apply (G (S (Z.to_nat B)) O _ (kept_start C m M m ltac:(lia))). lia.
Qed.

Lemma nan64b_nan x : nan64b x = true <-> nan TF8 x.
Proof. unfold nan64b, nan, fExp, fMan. rewrite andb_true_iff, negb_true_iff, Z.eqb_eq, Z.eqb_neq. reflexivity. Qed.

(** Of the 60 numbers, 51 are not NaN: enough for the tuning [tiny], too few for another. *)
Definition wide : tuning := Tuning 10 9 27 26.

Lemma wide_ok : tuningOk plat64 wide.
Proof. unfold tuningOk, intSize, wide. cbn. lia. Qed.

Definition exNums : list Z := filter (fun x => negb (nan64b x)) (contents fMem64 fSlice64).
Definition exNans : list Z := filter nan64b (contents fMem64 fSlice64).

Lemma filter_both {T} (f : T -> bool) l : Permutation l (filter (fun x => negb (f x)) l ++ filter f l).
Proof.
  induction l as [|x l IH]; cbn [filter app]; [constructor|]. destruct (f x); cbn [negb app].
  - eapply perm_trans; [apply perm_skip, IH|]. apply Permutation_middle.
  - apply perm_skip, IH.
Qed.

Example ex_shared : typedSlice plat64 TF8 fMem64 fSlice64 /\ Permutation (contents fMem64 fSlice64) (exNums ++ exNans) /\
  Forall (fun x => ~ nan TF8 x) exNums /\ Forall (nan TF8) exNans /\ Z.of_nat (length exNums) = 51 /\
  recLimit tiny (fCall64 1) = 46 /\ recLimit wide (fCall64 1) = 56 /\ cLen (fCall64 1) = 60 /\ tuningOk plat64 wide /\
  exists k st, kept (fCall64 1) 2 3 k st /\ returned st tt.
Proof.
  split; [exact ex_f64_typed|]. split; [apply filter_both|]. split; [|split; [|split; [|split; [|split; [|split; [|split]]]]]].
  - apply Forall_forall. intros x Hx. apply filter_In in Hx. destruct Hx as [_ Hx]. rewrite <- nan64b_nan. destruct (nan64b x); [discriminate|congruence].
  - apply Forall_forall. intros x Hx. apply filter_In in Hx. apply nan64b_nan, Hx.
  - vm_compute. reflexivity.
  - reflexivity.
  - reflexivity.
  - reflexivity.
  - exact wide_ok.
  - apply (kept_finish plat64 tiny); [apply plat64_ok|apply tiny_ok| |lia].
    exact (call_typed plat64 tiny TF8 1 fSlice64 fMem64 ex_f64_typed (or_introl eq_refl)).
Qed.
