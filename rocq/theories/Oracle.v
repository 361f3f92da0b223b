(** * Sort with any Lesswap function, on a collection others may change meanwhile *)

From Coq Require Import List ZArith Lia Bool.
From Verif Require Import Lang SeqLogic ConcLogic Adequacy Base Scalar Typed SeqOps TypedShort
  ScalarFacts TypedLong TypedSort Kinds Spec KindsFacts TypedApi Lsw LswSeq LswLong LswSort Calls Guarantee Erase Blind.
Import ListNotations.
Open Scope Z_scope.
Local Arguments Z.mul : simpl never.
Local Arguments Z.add : simpl never.
Local Arguments Z.sub : simpl never.
Local Arguments Z.pow : simpl never.

(** As [reach], but the elements too may change arbitrarily between any two steps: other goroutines
    write to them, or Lesswap does not do what it should (it answers anything, exchanges other
    elements or none). *)
Definition disturbed {T} (C : call T) (M : Z) (k : nat) (s : st (cP C) T unit) : Prop :=
  exists mg0, 0 <= mg0 <= M /\
    exec (cProcs C) M (fun _ => False) k (start (cProg C) (cInit C) mg0) s.

Lemma exec_weaken {P T R} (body : P -> cmd P T unit) M (Rg Rg' : Z -> Prop) n (s s' : st P T R) :
  (forall i, Rg' i -> Rg i) -> exec body M Rg n s s' -> exec body M Rg' n s s'.
Proof.
  intros HR H. induction H as [s|n s sa sb H IH Hp|n s sa sb H IH He]; [constructor|eapply exec_prog; eauto|].
  eapply exec_env; [exact IH|]. destruct He as [m ts s1 mem' mg' H1 H2]. constructor; auto.
Qed.

Lemma reach_disturbed {T} (C : call T) M k s : reach C M k s -> disturbed C M k s.
Proof.
  intros (mg0 & Hm & He). exists mg0. split; [exact Hm|]. eapply exec_weaken; [|exact He]. intros i [].
Qed.

Lemma exec_trans {P T R} (body : P -> cmd P T unit) M (Rg : Z -> Prop) n n' (s s1 s2 : st P T R) :
  exec body M Rg n s s1 -> exec body M Rg n' s1 s2 -> exec body M Rg (n' + n) s s2.
Proof.
  intros H H'. induction H' as [s1|n' s1 sa sb H' IH Hp|n' s1 sa sb H' IH He]; [exact H|eapply exec_prog; eauto|eapply exec_env; eauto].
Qed.

Lemma Forall2_nth_l {X Y} (Q : X -> Y -> Prop) l l' : Forall2 Q l l' -> forall i x, nth_error l i = Some x ->
  exists y, nth_error l' i = Some y /\ Q x y.
Proof.
  induction 1; intros [|i] z E; cbn in E; try discriminate.
  - inversion E; subst. exists y. split; [reflexivity|assumption].
  - apply IHForall2. exact E.
Qed.

Lemma Forall2_In_l {X Y} (Q : X -> Y -> Prop) l l' x : Forall2 Q l l' -> In x l -> exists y, In y l' /\ Q x y.
Proof.
  intros H Hin. apply In_nth_error in Hin. destruct Hin as (i & Hi).
  destruct (Forall2_nth_l Q l l' H i x Hi) as (y & Hy & HQ). exists y. split; [eapply nth_error_In; exact Hy|exact HQ].
Qed.

(** Values for a list of elements. *)
Definition pick {T} (d : T) (L : list T) (z : Z) : T := nth (Z.to_nat z) L d.

Lemma pick_all {T} (d : T) L x : In x L -> exists z, 0 <= z <= Z.of_nat (length L) /\ pick d L z = x.
Proof.
  intro H. destruct (In_nth L x d H) as (i & Hi & E). exists (Z.of_nat i). unfold pick. rewrite Nat2Z.id. split; [lia|exact E].
Qed.

Section Any.
Variables (pl : plat) (tn : tuning).
Hypothesis Hpl : platOk pl.
Hypothesis Htn : tuningOk pl tn.
Local Existing Instance pword.
Context {T : Type}.
Variable lt : T -> T -> bool.         (* anything *)
Variables (cap n : Z).
Hypothesis Hn : 0 <= n <= cap.
Hypothesis Hb : 11 * n + 18 < 10 * intSize pl.
Variable m0 : Z -> T.

Notation C := (lswCall pl tn lt cap n m0).
Notation body := (lswBody (Wd := pword pl) lt cap tn (mI pl)).
Notation prog := (lswSort (Wd := pword pl) lt cap tn (mI pl) n).
Notation R0 := (reg (Slice 0 n)).
Notation eb f := (fun p => erase f (within n) (body p)).
Notation Dp := (Z.to_nat (Z.log2 n + 2)).

Lemma blind_wp f md0 : md0 = MInit \/ (md0 = MSeq /\ n < 2 * (maxLenRecFC tn + 1)) ->
  wp (Gr := lswGrain tn) (eb f) (wpT (Gr := lswGrain tn) (eb f) Dp) Dp (QM (fun (_ : unit) _ => True))
     (Z.to_nat (cSort n + 12)) (erase f (within n) prog) (Gst R0 R0 (fun _ => tt) md0 0).
Proof.
  intro Hmd.
  assert (T1 := tuning_ins (lkind lt) tn Htn). assert (T2 := tuning_rec (lkind lt) tn Htn). assert (T3 := tuning_rec2 (lkind lt) tn Htn).
  apply (wp_bSort (Wd := pword pl) lt cap n ltac:(lia) tn (mI pl) (meanOk_of pl Hpl) (meanEven_of pl Hpl) T1 T2 T3 f Dp);
    [auto|lia|lia|assert (HI := intSize_wq pl (proj1 Hpl)); lia|exact Hmd|lia].
Qed.

Lemma cells_finite : exists l, (forall i, R0 i -> In i l) /\ Z.of_nat (length l) < two64.
Proof. apply (slice_finite pl 0 n Hpl). lia. Qed.

Section Run.
Variables (M : Z) (mg0 : Z).
Hypothesis Hmg : 0 <= mg0 <= M.
Notation runs := (exec body M (fun _ => False)).

(** The erased execution behind an execution. *)
Lemma behind k s : runs k (start prog m0 mg0) s ->
  exists f M' s', M <= M' /\ exec (eb f) M' R0 k (start (erase f (within n) prog) (fun _ => tt) mg0) s' /\ srel f (within n) s s'.
Proof.
  intro H. destruct (simulation (within n) body M k _ s H Hmg) as (_ & L & HL).
  set (f := pick (m0 0) L). set (M' := Z.max M (Z.of_nat (length L))).
  exists f, M'. destruct (HL f M' (start (erase f (within n) prog) (fun _ => tt) mg0)) with (Rg := R0) as (s' & He & Hs).
  - unfold M'. lia.
  - intros x Hx. destruct (pick_all (m0 0) L x Hx) as (z & Hz & E). exists z. split; [unfold M'; lia|exact E].
  - split; [apply er_erase|]. split; [constructor|]. cbn. auto.
  - intros k' s' He'. refine (ad_no_panic _ _ _ M' R0 _ cells_finite _ _ _ mg0 MInit _ (or_intror eq_refl) (blind_wp f MInit (or_introl eq_refl)) k' s' He').
    unfold M'. lia.
  - exists s'. split; [unfold M'; lia|]. split; assumption.
Qed.

Ltac beh H := let f := fresh "f" in let M' := fresh "M'" in let s' := fresh "s'" in
  destruct (behind _ _ H) as (f & M' & s' & HM' & He & Hm & Ht & Hg & Hc);
  assert (Hmg' : 0 <= mg0 <= M') by lia;
  assert (HW := blind_wp f MInit (or_introl eq_refl)).

Lemma o_steps k s : runs k (start prog m0 mg0) s -> Z.of_nat k <= cSort n + 12.
Proof.
  intro H. beh H.
  assert (Hk := ad_steps _ _ _ M' R0 _ cells_finite _ _ _ mg0 MInit Hmg' (or_intror eq_refl) HW k s' He).
  assert (C1 := cSort_pos n). lia.
Qed.

Lemma o_no_panic k s : runs k (start prog m0 mg0) s -> ~ panicked s.
Proof.
  intros H Hp. beh H.
  apply (ad_no_panic _ _ _ M' R0 _ cells_finite _ _ _ mg0 MInit Hmg' (or_intror eq_refl) HW k s' He).
  destruct Hp as [Hp|(c & Hin & Hp)].
  - left. apply view_er in Hm. rewrite Hp in Hm. exact Hm.
  - right. destruct (Forall2_In_l _ _ _ _ Ht Hin) as (c' & Hin' & Hr). exists c'. split; [exact Hin'|].
    apply view_er in Hr. rewrite Hp in Hr. exact Hr.
Qed.

Lemma o_in_bounds k s x w : runs k (start prog m0 mg0) s -> In (Some (x, w)) (accesses s) -> 0 <= x < n.
Proof.
  intros H Hx. beh H.
  assert (Hp := ad_no_panic _ _ _ M' R0 _ cells_finite _ _ _ mg0 MInit Hmg' (or_intror eq_refl) HW k s' He).
  destruct (within n x) eqn:E; [unfold within in E; lia|]. exfalso. apply Hp.
  unfold accesses in Hx. destruct Hx as [Hx|Hx].
  - left. eapply er_access; eassumption.
  - right. apply in_map_iff in Hx. destruct Hx as (c & Hx & Hin).
    destruct (Forall2_In_l _ _ _ _ Ht Hin) as (c' & Hin' & Hr). exists c'. split; [exact Hin'|].
    eapply er_access; eassumption.
Qed.

Lemma o_depth k s : runs k (start prog m0 mg0) s ->
  (depth (main s) <= Dp)%nat /\ forall c, In c (thr s) -> (depth c <= Dp)%nat.
Proof.
  intros H. beh H.
  destruct (ad_depth _ _ _ M' R0 _ cells_finite _ _ _ mg0 MInit Hmg' (or_intror eq_refl) HW k s' He) as [H1 H2].
  split; [apply er_depth in Hm; lia|]. intros c Hin.
  destruct (Forall2_In_l _ _ _ _ Ht Hin) as (c' & Hin' & Hr). apply er_depth in Hr. specialize (H2 c' Hin'). lia.
Qed.

Lemma o_chans k s : runs k (start prog m0 mg0) s -> 0 <= chans (sh s) <= 1.
Proof.
  intros H. beh H. destruct Hc as [_ Hc]. rewrite <- Hc.
  exact (ad_chans _ _ _ M' R0 _ cells_finite _ _ _ mg0 MInit Hmg' (or_intror eq_refl) HW k s' He).
Qed.

Lemma o_progress k s : runs k (start prog m0 mg0) s -> returned s tt \/ exists s1, pstep body s s1.
Proof.
  intros H. beh H.
  destruct (ad_progress _ _ _ M' R0 _ cells_finite _ _ _ mg0 MInit Hmg' (or_intror eq_refl) HW k s' He) as [[[] Hr]|[s1 Hs]].
  - left. apply (er_ret_inv _ _ _ _ _ Hm). exact Hr.
  - right. eapply (srel_step f (within n) body (eb f)); [|exact Hs]. split; [exact Hm|]. split; [exact Ht|]. split; [exact Hg|exact Hc].
Qed.

Lemma o_return k s : runs k (start prog m0 mg0) s -> returned s tt -> forall c, In c (thr s) -> exiting c.
Proof.
  intros H Hr c Hin. beh H.
  destruct (ad_return _ _ _ M' R0 _ cells_finite _ _ _ mg0 MInit Hmg' (or_intror eq_refl) HW _ k s' tt (fun _ _ _ h => h) He) as [_ Hx].
  { apply (er_ret_inv _ _ _ _ _ Hm). exact Hr. }
  destruct (Forall2_In_l _ _ _ _ Ht Hin) as (c' & Hin' & Hc'). eapply er_exiting; [exact Hc'|auto].
Qed.

Lemma o_spread k s idx : runs k (start prog m0 mg0) s -> NoDup idx -> (forall i, In i idx -> busy s i) ->
  Z.of_nat (length idx) <= 1 \/ (maxLenRecFC tn + 1) * Z.of_nat (length idx) <= n.
Proof.
  intros H Hnd Hw. beh H. destruct (slice_elems 0 n ltac:(lia)) as (L & HL & EL).
  assert (T2 := rec_nonneg pl tn true Htn). cbn in T2.
  destruct (ad_spread _ _ _ M' R0 _ cells_finite _ _ _ mg0 MInit Hmg' (or_intror eq_refl) HW k s' idx L He) as [H1|H1].
  - intros i Hi. apply HL. exact Hi.
  - exact Hnd.
  - intros i Hi. specialize (Hw i Hi). destruct i as [|i]; cbn [busy working] in *.
    + intro Hq. apply Hw. eapply quiet_er; [exact Hq|exact Hm].
    + destruct Hw as (c & Hc1 & Hq). destruct (Forall2_nth_l _ _ _ Ht _ _ Hc1) as (c' & Hc2 & Hr).
      exists c'. split; [exact Hc2|]. intro Hq'. apply Hq. eapply quiet_er; eassumption.
  - left. lia.
  - right. unfold gr, lswGrain in H1. rewrite <- EL. rewrite Z2Nat.id in H1 by lia. exact H1.
Qed.

Lemma o_alone k s : n < 2 * (maxLenRecFC tn + 1) -> runs k (start prog m0 mg0) s -> thr s = [] /\ chans (sh s) = 0.
Proof.
  intros Hs H. beh H.
  assert (HW' := blind_wp f MSeq (or_intror (conj eq_refl Hs))).
  destruct (ad_single _ _ _ M' R0 _ _ _ _ mg0 MSeq Hmg' (or_introl eq_refl) HW' k s' (or_introl eq_refl) He) as [H1 H2].
  split; [|destruct Hc; lia]. rewrite H1 in Ht. inversion Ht. reflexivity.
Qed.

Lemma o_finish k s : runs k (start prog m0 mg0) s -> exists j s1, runs j s s1 /\ returned s1 tt.
Proof.
  assert (G : forall b k s, runs k (start prog m0 mg0) s -> cSort n + 12 - Z.of_nat k < Z.of_nat b ->
    exists j s1, runs j s s1 /\ returned s1 tt).
  { induction b as [|b IH]; intros k0 s0 H Hk.
    - apply o_steps in H. lia.
    - destruct (o_progress k0 s0 H) as [Hr|[s1 Hs]]; [exists O, s0; split; [constructor|exact Hr]|].
      destruct (IH (S k0) s1) as (j & s2 & He & Hr); [eapply exec_prog; eauto|lia|].
      exists (j + 1)%nat, s2. split; [|exact Hr].
      eapply exec_trans; [eapply exec_prog; [constructor|exact Hs]|exact He]. }
  intro H. apply (G (S (Z.to_nat (cSort n + 12))) k s H). lia.
Qed.

End Run.
End Any.

(** All of it. *)
Lemma any_lesswap pl tn T (lt : T -> T -> bool) cap n m0 M k st : platOk pl -> tuningOk pl tn ->
  0 <= n <= cap -> 11 * n + 18 < 10 * intSize pl ->
  let C := lswCall pl tn lt cap n m0 in disturbed C M k st ->
  ~ panicked st /\ (forall x w, In (Some (x, w)) (accesses st) -> 0 <= x < n) /\
  Z.of_nat k <= 100 * n * n + 12 /\
  (returned st tt \/ exists st', pstep (cProcs C) st st') /\
  (returned st tt -> forall c, In c (thr st) -> exiting c).
Proof.
  intros Hpl Htn Hn Hb C (mg0 & Hmg & He).
  split; [exact (o_no_panic pl tn Hpl Htn lt cap n Hn Hb m0 M mg0 Hmg k st He)|].
  split; [intros x w; exact (o_in_bounds pl tn Hpl Htn lt cap n Hn Hb m0 M mg0 Hmg k st x w He)|].
  split; [exact (o_steps pl tn Hpl Htn lt cap n Hn Hb m0 M mg0 Hmg k st He)|].
  split; [exact (o_progress pl tn Hpl Htn lt cap n Hn Hb m0 M mg0 Hmg k st He)|].
  exact (o_return pl tn Hpl Htn lt cap n Hn Hb m0 M mg0 Hmg k st He).
Qed.

Lemma any_lesswap_resources pl tn T (lt : T -> T -> bool) cap n m0 M k st : platOk pl -> tuningOk pl tn ->
  0 <= n <= cap -> 11 * n + 18 < 10 * intSize pl ->
  disturbed (lswCall pl tn lt cap n m0) M k st ->
  (forall c, In c (thr st) -> Z.of_nat (depth c) <= Z.log2 n + 2) /\ Z.of_nat (depth (main st)) <= Z.log2 n + 2 /\
  chans (sh st) <= 1 /\ (n < 2 * (maxLenRecFC tn + 1) -> thr st = [] /\ chans (sh st) = 0) /\
  forall idx, NoDup idx -> (forall i, In i idx -> busy st i) ->
    Z.of_nat (length idx) <= 1 \/ (maxLenRecFC tn + 1) * Z.of_nat (length idx) <= n.
Proof.
  intros Hpl Htn Hn Hb (mg0 & Hmg & He). assert (L0 := Z.log2_nonneg n).
  assert (HD := o_depth pl tn Hpl Htn lt cap n Hn Hb m0 M mg0 Hmg k st He). destruct HD as [H1 H2].
  split; [intros c Hin; specialize (H2 c Hin); apply Nat2Z.inj_le in H2; rewrite Z2Nat.id in H2 by lia; exact H2|].
  split; [apply Nat2Z.inj_le in H1; rewrite Z2Nat.id in H1 by lia; exact H1|].
  split; [apply (o_chans pl tn Hpl Htn lt cap n Hn Hb m0 M mg0 Hmg k st He)|].
  split; [intro Hs; exact (o_alone pl tn Hpl Htn lt cap n Hn Hb m0 M mg0 Hmg k st Hs He)|].
  intros idx. exact (o_spread pl tn Hpl Htn lt cap n Hn Hb m0 M mg0 Hmg k st idx He).
Qed.

(** ** Nothing is assumed of the answers

    The comparison of single bits "the first one is set" makes every answer possible. *)

Section Answers.
Context {P T R : Type}.
Variable body : P -> cmd P T unit.

(** Steps of one goroutine that starts no other and does not communicate. *)
Inductive srun {A} : cmd P T A -> shared T -> cmd P T A -> shared T -> Prop :=
| srun_refl c s : srun c s c s
| srun_step c s c1 s1 c2 s2 : exec_local body c s = Some (c1, s1, []) -> srun c1 s1 c2 s2 -> srun c s c2 s2.

Lemma srun_main M Rg (c : cmd P T R) s c' s' ts : srun c s c' s' ->
  exists j, exec body M Rg j (St c ts s) (St c' ts s').
Proof.
  induction 1 as [c s|c s c1 s1 c2 s2 H _ [j IH]]; [exists O; constructor|]. exists (j + 1)%nat.
  eapply exec_trans; [|exact IH]. eapply exec_prog; [constructor|]. rewrite <- (app_nil_r ts) at 2. apply step_now, step_main. exact H.
Qed.

Lemma srun_thr M Rg (c : cmd P T unit) s c' s' (m : cmd P T R) l1 l2 : srun c s c' s' ->
  exists j, exec body M Rg j (St m (l1 ++ c :: l2) s) (St m (l1 ++ c' :: l2) s').
Proof.
  induction 1 as [c s|c s c1 s1 c2 s2 H _ [j IH]]; [exists O; constructor|]. exists (j + 1)%nat.
  eapply exec_trans; [|exact IH]. eapply exec_prog; [constructor|]. rewrite <- (app_nil_r l2) at 2. apply step_now, step_thr. exact H.
Qed.
End Answers.

Section Answer.
Variable body : lproc -> cmd lproc bool unit.
Variables (cap i k r q : Z).
Hypothesis (Hi : 0 <= i < cap) (Hk : 0 <= k < cap) (Hr : 0 <= r < cap) (Hq : 0 <= q < cap).

Lemma answer_local {A} (b : bool) (K : bool -> cmd lproc bool A) (s : shared bool) :
  exists c' m', srun body (Bind (lsw (fun x _ => x) cap i k r q) K) (Sh (fun _ => b) (ngor s) (maxg s) (chans s))
                  c' (Sh m' (ngor s) (maxg s) (chans s)) /\ view c' = view (K b).
Proof.
  unfold lsw, cget, cset.
  replace ((0 <=? r) && (r <? cap) && (0 <=? q) && (q <? cap)) with true by lia.
  replace ((0 <=? i) && (i <? cap)) with true by lia. replace ((0 <=? k) && (k <? cap)) with true by lia.
  replace ((0 <=? r) && (r <? cap)) with true by lia. replace ((0 <=? q) && (q <? cap)) with true by lia.
  cbn [negb].
  destruct b; [destruct (r =? q) eqn:E|].
  - do 2 eexists. split; [|]; [do 2 (eapply srun_step; [reflexivity|]); apply srun_refl|]. reflexivity.
  - do 2 eexists. split; [|]; [do 6 (eapply srun_step; [reflexivity|]); apply srun_refl|]. reflexivity.
  - do 2 eexists. split; [|]; [do 2 (eapply srun_step; [reflexivity|]); apply srun_refl|]. reflexivity.
Qed.
End Answer.

Lemma any_answer_main body M cap i k r q (b : bool) (K : bool -> cmd lproc bool unit) ts (s : shared bool) :
  0 <= i < cap -> 0 <= k < cap -> 0 <= r < cap -> 0 <= q < cap -> 0 <= maxg s <= M ->
  exists j c' s', exec body M (fun _ => False) j (St (Bind (lsw (fun x _ => x) cap i k r q) K) ts s) (St c' ts s') /\
    view c' = view (K b) /\ ngor s' = ngor s /\ maxg s' = maxg s /\ chans s' = chans s.
Proof.
  intros Hi Hk Hr Hq Hs. destruct (answer_local body cap i k r q Hi Hk Hr Hq b K s) as (c' & m' & Hrun & Hv).
  destruct (srun_main body M (fun _ => False) _ _ _ _ ts Hrun) as (j & He). exists (j + 0)%nat, c', (Sh m' (ngor s) (maxg s) (chans s)).
  split; [|split; [exact Hv|auto]]. eapply exec_trans; [|exact He]. eapply exec_env; [constructor|].
  destruct s as [m0 ng mg ch]. constructor; [exact Hs|intros x []].
Qed.

Lemma any_answer_thr {R} body M cap i k r q (b : bool) (K : bool -> cmd lproc bool unit) (m : cmd lproc bool R) l1 l2 (s : shared bool) :
  0 <= i < cap -> 0 <= k < cap -> 0 <= r < cap -> 0 <= q < cap -> 0 <= maxg s <= M ->
  exists j c' s', exec body M (fun _ => False) j (St m (l1 ++ Bind (lsw (fun x _ => x) cap i k r q) K :: l2) s) (St m (l1 ++ c' :: l2) s') /\
    view c' = view (K b) /\ ngor s' = ngor s /\ maxg s' = maxg s /\ chans s' = chans s.
Proof.
  intros Hi Hk Hr Hq Hs. destruct (answer_local body cap i k r q Hi Hk Hr Hq b K s) as (c' & m' & Hrun & Hv).
  destruct (srun_thr (R := R) body M (fun _ => False) _ _ _ _ m l1 l2 Hrun) as (j & He). exists (j + 0)%nat, c', (Sh m' (ngor s) (maxg s) (chans s)).
  split; [|split; [exact Hv|auto]]. eapply exec_trans; [|exact He]. eapply exec_env; [constructor|].
  destruct s as [m0 ng mg ch]. constructor; [exact Hs|intros x []].
Qed.
