(** * Further facts about Sort and IsSorted over a Lesswap function *)

From Coq Require Import List ZArith Lia Bool Permutation Sorted.
From Verif Require Import Lang SeqLogic ConcLogic Adequacy SeqAdequacy Base Scalar Typed SeqOps ScalarFacts
  TypedPart TypedShort ConcSort TypedLong TypedSort Kinds Spec KindsFacts TypedApi Lsw LswSeq LswPart LswLong LswSort
  Calls Guarantee TypedFacts.
Import ListNotations.
Open Scope Z_scope.
Local Arguments Z.mul : simpl never.
Local Arguments Z.add : simpl never.
Local Arguments Z.sub : simpl never.
Local Arguments Z.pow : simpl never.

(** ** IsSorted *)

Section Check.
Context {Wd : word}.
Context {T : Type}.
Variable lt : T -> T -> bool.
Variable cap : Z.
Variable body : lproc -> cmd lproc T unit.

Lemma swp_lswIsSorted n v D : - (2 * wq) < n < 2 * wq -> n <= Z.max 0 cap ->
  swp body D (Z.to_nat (4 * Z.max 0 n + 4)) (cellsOf (Slice 0 n)) empty
    (fun r _ v' => v' = v /\ checkSpecBy lt n v r) (lswIsSorted lt cap n) v.
Proof.
  intros Hn Hcap. unfold lswIsSorted. rewrite iw_small by lia.
  eapply (swp_loop_var body D 3 (cellsOf (Slice 0 n)) empty
    (fun i v' => v' = v /\ i < n /\ (0 < n -> 0 <= i) /\
       forall j, i < j < n -> 0 < j -> lt (v j) (v (j - 1)) = false)
    (fun i => Z.max 0 i)
    (fun r v' => v' = v /\ checkSpecBy lt n v r)).
  - intros i v' (-> & H1 & H2 & H3). destruct (Z.ltb_spec 0 i) as [C|C].
    + apply swp_bind. apply swp_test; [lia|lia|lia|lia|unfold cellsOf; simpl; lia|unfold cellsOf; simpl; lia|].
      intros b E. destruct b; apply swp_ret.
      * split; [reflexivity|]. split.
        { split; [lia|]. intro G. rewrite G in E by lia. discriminate. }
        intros _. split; [lia|]. split; [exact E|]. intros j Hj. apply H3; lia.
      * split; [|lia]. split; [reflexivity|]. split; [lia|]. split; [lia|].
        intros j Hj Hj0. destruct (Z.eq_dec j i) as [->|]; [exact E|apply H3; lia].
    + apply swp_ret. split; [reflexivity|]. split; [|intro G; lia].
      split; [|reflexivity]. intros _ j Hj. apply H3; lia.
  - split; [reflexivity|]. split; [lia|]. split; [lia|]. intros; lia.
  - lia.
  - lia.
Qed.

End Check.

Lemma lswCheck_reach {Wd : word} {T} (lt : T -> T -> bool) cap body n m0 mg0 M k st :
  - (2 * wq) < n < 2 * wq -> n <= Z.max 0 cap ->
  exec body M (cellsOf (Slice 0 n)) k (start (lswIsSorted lt cap n) m0 mg0) st ->
  thr st = [] /\ chans (sh st) = 0 /\ Z.of_nat k <= 4 * Z.max 0 n + 4 /\ ~ panicked st /\
  (forall x w, In (Some (x, w)) (accesses st) -> w = false /\ 0 <= x < n) /\
  ((exists r, returned st r) \/ exists st', pstep body st st').
Proof.
  intros Hn Hcap He. assert (HS := swp_lswIsSorted lt cap body n m0 O Hn Hcap).
  destruct (seq_safe _ _ _ M _ _ _ _ _ mg0 HS k st He) as (H1 & H2 & H3 & H4 & H5 & H6 & H7).
  split; [exact H1|]. split; [exact H2|]. split; [lia|]. split; [exact H4|]. split; [|exact H7].
  intros x w Hin. specialize (H5 x w Hin). destruct w; [contradiction H5|]. split; [reflexivity|exact H5].
Qed.

Lemma lswCheck_return {Wd : word} {T} (lt : T -> T -> bool) cap body n m0 mg0 M k st r :
  - (2 * wq) < n < 2 * wq -> n <= Z.max 0 cap ->
  exec body M (cellsOf (Slice 0 n)) k (start (lswIsSorted lt cap n) m0 mg0) st -> returned st r ->
  checkSpecBy lt n m0 r.
Proof.
  intros Hn Hcap He Hr. assert (HS := swp_lswIsSorted lt cap body n m0 O Hn Hcap).
  destruct (seq_return _ _ _ M _ _ _ _ _ mg0 HS k st r He Hr) as (m & v & (-> & HQ) & _). exact HQ.
Qed.

(** IsSorted after Sort. *)
Lemma lswCheck_after_sort pl tn T (lt : T -> T -> bool) cap n m0 M k st M' cap' body m1 mg1 k' st' r :
  platOk pl -> tuningOk pl tn -> weakOrder lt -> 0 <= n <= cap -> 11 * n + 18 < 10 * intSize pl -> n <= cap' ->
  reach (lswCall pl tn lt cap n m0) M k st -> returned st tt ->
  (forall i, cellsOf (Slice 0 n) i -> m1 i = mem (sh st) i) ->
  exec body M' (cellsOf (Slice 0 n)) k' (start (lswIsSorted lt cap' n) m1 mg1) st' -> returned st' r -> r = 0.
Proof.
  intros Hpl Htn Hlt Hn Hb Hc' HR Hret Hm He Hr.
  assert (HI := intSize_wq pl (proj1 Hpl)).
  assert (HC := call_lsw pl tn T lt cap n m0 Hlt Hn Hb).
  destruct (g_goal pl tn Hpl Htn _ HC M k st HR tt Hret) as [[HP HO] _]. cbn [lswCall lswCallBy cGoal] in HP, HO.
  rewrite <- (contents_map _ m1 _ Hm) in HO. unfold noSmallerAfter in HO. rewrite contents_seg in HO. simpl in HO.
  assert (HK := lswCheck_return (Wd := pword pl) lt cap' body n m1 mg1 M' k' st' r ltac:(lia) ltac:(lia) He Hr).
  apply HK. intros i Hi. apply (sorted_ascending _ _ _ _ HO); lia.
Qed.

(** ** Degenerate lengths *)

Lemma lswSort_degenerate {T} (lt : T -> T -> bool) cap pl tn n (m0 : Z -> T) mg0 M Rg k st :
  tuningOk pl tn -> - intSize pl < n <= 1 ->
  exec (lswBody lt cap tn (mI pl)) M Rg k (start (lswSort lt cap tn (mI pl) n) m0 mg0) st ->
  k = O /\ returned st tt /\ thr st = [] /\ chans (sh st) = 0.
Proof.
  intros Htn Hn He. rewrite (intSize_eq pl) in Hn.
  assert (T1 := tuning_ins (lkind lt) tn Htn). assert (T2 := tuning_rec (lkind lt) tn Htn).
  assert (T3 := tuning_rec2 (lkind lt) tn Htn). unfold maxIns, maxRec in *. cbn [fc lkind] in *.
  assert (V : view (lswSort lt cap tn (mI pl) n) = HRet tt).
  { unfold lswSort. cbv zeta. rewrite (iw_small (n - 1)) by lia. rewrite lswConc_plain by assumption.
    destruct (Z.leb_spec (n - 1) (2 * maxLenRecFC tn)); [|lia]. cbn [view].
    destruct (Z.leb_spec (maxLenRecFC tn) (n - 1)); [lia|]. destruct (Z.leb_spec (maxLenInsFC tn) (n - 1)); [lia|].
    destruct (Z.ltb_spec 0 (n - 1)); [lia|]. reflexivity. }
  remember (start (lswSort lt cap tn (mI pl) n) m0 mg0) as s0 eqn:E0.
  assert (G : k = O /\ returned st tt /\ thr st = [] /\ chans (sh st) = 0); [|exact G].
  induction He as [s|j s s1 s2 He IH Hs|j s s1 s2 He IH Hs].
  - subst s. split; [reflexivity|]. split; [exact V|]. split; reflexivity.
  - exfalso. destruct (IH E0) as (-> & Hr & Ht & _). unfold returned in Hr.
    destruct Hs as [s1 s2 Hs| |]; [destruct Hs| |]; cbn [main thr sh] in *; try (destruct l1; discriminate); [|congruence].
    unfold exec_local in H. rewrite Hr in H. discriminate.
  - destruct (IH E0) as (-> & Hr & Ht & Hc). destruct Hs; cbn in *. auto.
Qed.

(** ** Stability of short inputs *)

Lemma lsw_stable pl tn T (lt : T -> T -> bool) cap n m0 M k st :
  platOk pl -> tuningOk pl tn -> irreflexive lt -> 0 <= n <= cap -> 11 * n + 18 < 10 * intSize pl -> n <= maxLenInsFC tn ->
  reach (lswCall pl tn lt cap n m0) M k st -> returned st tt ->
  stableBy lt (contents m0 (Slice 0 n)) (contents (mem (sh st)) (Slice 0 n)).
Proof.
  intros Hpl Htn Hlt Hn Hb HI (mg0 & Hmg & He) Hr.
  assert (T1 := tuning_ins (lkind lt) tn Htn). assert (T2 := tuning_rec (lkind lt) tn Htn).
  assert (T3 := tuning_rec2 (lkind lt) tn Htn). unfold maxIns, maxRec in *. cbn [fc lkind] in *.
  assert (HZ := intSize_wq pl (proj1 Hpl)). set (s := Slice 0 n).
  assert (HB : bubble lt (contents m0 s) (contents (mem (sh st)) s)).
  { refine (proj1 (ad_return (Gr := Grain O false) _ O O M (cellsOf s) (QM (fun _ w => bubble lt (contents m0 s) (contents w s))) _ (Z.to_nat (cIns2 n)) _ _ mg0 MInit Hmg (or_intror eq_refl) _ _ k st tt (fun _ _ _ h => h) He Hr)).
    { unfold cellsOf. apply (slice_finite pl _ _ Hpl). simpl. lia. }
    cbn [lswCall lswCallBy cProcs cProg cInit].
    eapply wp_sapply with (D1 := O) (W1 := reg s) (R1 := reg s) (n1 := Z.to_nat (cIns2 n))
      (Post := fun _ w => bubble lt (contents m0 s) (contents w s)); [typeclasses eauto|exact I| |lia|apply Nat.le_refl|auto|auto|].
    - cbn [val]. unfold lswSort. cbv zeta. rewrite (iw_small (n - 1)) by lia. rewrite lswConc_plain by assumption.
      destruct (Z.leb_spec (n - 1) (2 * maxLenRecFC tn)); [|lia]. apply swp_bind, swp_ret.
      destruct (Z.leb_spec (maxLenRecFC tn) (n - 1)); [lia|]. destruct (Z.leb_spec (maxLenInsFC tn) (n - 1)); [lia|].
      destruct (Z.ltb_spec 0 (n - 1)).
      + assert (Er : rng 0 (n - 1) = s) by (unfold rng, s; f_equal; lia).
        assert (G := swp_insertion2 (Wd := pword pl) lt _ (consistent_none lt Hlt) cap (lswBody lt cap tn (mI pl)) 0 (n - 1) m0 O ltac:(lia) ltac:(lia) ltac:(lia) ltac:(lia)).
        rewrite Er in G. replace (n - 1 - 0 + 1) with n in G by lia.
        eapply swp_conseq; [exact G|]. cbv beta. intros _ m v' _ [HB _].
        rewrite !contents_seg. simpl. replace (n - 1 + 1) with n in HB by lia. exact HB.
      + apply swp_ret. constructor.
    - unfold QM. cbn [md setval]. intros _ m v' HB _ _ w Hw.
      rewrite (contents_ext w v'); [exact HB|]. intros i Hi. apply Hw. exact Hi. }
  intros p Hp. apply (bubble_filter_on lt (fun _ => True)); [|apply Forall_forall; auto|exact HB].
  intros x y _ _ Px Py. apply Hp; assumption.
Qed.

(** ** The result is determined up to equivalence *)

Lemma Forall2_split {A} (R : A -> A -> Prop) : forall l1 l2, length l1 = length l2 ->
  (forall a x b c y d, l1 = a ++ x :: b -> l2 = c ++ y :: d -> length a = length c -> R x y) ->
  Forall2 R l1 l2.
Proof.
  induction l1 as [|x l1 IH]; intros [|y l2] HL H; try discriminate; constructor.
  - apply (H [] x l1 [] y l2); reflexivity.
  - apply IH; [simpl in HL; lia|]. intros a x' b c y' d E1 E2 E3.
    apply (H (x :: a) x' b (y :: c) y' d); simpl; congruence.
Qed.

Lemma filter_len_all {A} (f : A -> bool) l : Forall (fun x => f x = true) l -> length (filter f l) = length l.
Proof. induction 1; simpl; [reflexivity|]. rewrite H. simpl. congruence. Qed.

Lemma filter_len_none {A} (f : A -> bool) l : Forall (fun x => f x = false) l -> length (filter f l) = O.
Proof. induction 1; simpl; [reflexivity|]. rewrite H. exact IHForall. Qed.

Lemma filter_len_le {A} (f : A -> bool) (l : list A) : (length (filter f l) <= length l)%nat.
Proof. induction l as [|x l IH]; simpl; [lia|]. destruct (f x); simpl; lia. Qed.

Lemma sorted_prefix {A} (R : A -> A -> Prop) a x b : StronglySorted R (a ++ x :: b) ->
  Forall (fun z => R z x) a /\ Forall (R x) b.
Proof.
  induction a as [|y a IH]; simpl; intro H.
  - inversion H; subst. auto.
  - inversion H as [|? ? H1 H2]; subst. destruct (IH H1) as [I1 I2]. split; [|exact I2]. constructor; [|exact I1].
    rewrite Forall_forall in H2. apply H2. apply in_or_app. right; left; reflexivity.
Qed.

Lemma permL_filter_len {A} (f : A -> bool) l1 l2 : Permutation l1 l2 -> length (filter f l1) = length (filter f l2).
Proof.
  induction 1; simpl; auto.
  - destruct (f x); simpl; congruence.
  - destruct (f x), (f y); simpl; congruence.
  - congruence.
Qed.

Lemma noSmallerAfter_unique {T} (lt : T -> T -> bool) l1 l2 : weakOrder lt ->
  Permutation l1 l2 -> noSmallerAfter lt l1 -> noSmallerAfter lt l2 -> Forall2 (sameBy lt) l1 l2.
Proof.
  intros Hlt HP S1 S2. apply Forall2_split; [apply Permutation_length; exact HP|].
  assert (G : forall l1 l2, Permutation l1 l2 -> noSmallerAfter lt l1 -> noSmallerAfter lt l2 ->
     forall a x b c y d, l1 = a ++ x :: b -> l2 = c ++ y :: d -> length a = length c -> lt x y = false).
  { clear - Hlt. intros. destruct (lt x y) eqn:E; [exfalso|reflexivity]. subst l1 l2.
    destruct (sorted_prefix _ _ _ _ H0) as [A1 _]. destruct (sorted_prefix _ _ _ _ H1) as [_ A2].
    assert (HL := permL_filter_len (fun z => lt z y) _ _ H). rewrite !filter_app, !app_length in HL. simpl in HL.
    rewrite E, (proj1 (consistent_self lt Hlt)) in HL.
    rewrite (filter_len_all _ a), (filter_len_none _ d) in HL.
    - assert (G := filter_len_le (fun z => lt z y) c). simpl in HL. lia.
    - eapply Forall_impl; [|exact A2]. cbv beta. auto.
    - eapply Forall_impl; [|exact A1]. cbv beta. intros z Hz. destruct (lt z y) eqn:Ez; [reflexivity|].
      destruct Hlt as [_ Ht]. rewrite (Ht y z x Ez Hz) in E. discriminate. }
  intros a x b c y d E1 E2 E3. split.
  - eapply G; [exact HP|exact S1|exact S2|eassumption..].
  - eapply G; [symmetry; exact HP|exact S2|exact S1|eassumption..|congruence].
Qed.

(** ** One splitting step *)

Section Split.
Context {Wd : word}.
Context {T : Type}.
Variables lt lq : T -> T -> bool.
Hypothesis Hlt : consistent lt lq.
Variable cap : Z.
Variable tn : tuning.
Variable meanI : Z -> Z -> Z.

Definition lswSplitShort (lo hi : Z) : cmd lproc T Z :=
  Bind (lswPivotShort lt cap lo hi) (fun pv => lswPartOne lt cap (lo + 1) pv (hi - 1)).
Definition lswSplitLong (lo hi : Z) : cmd lproc T Z :=
  Bind (lswPivot lt cap meanI lo hi (nsLong - 1)) (fun pv => lswPartOne lt cap (lo + 1) pv (hi - 1)).

Lemma parted_specBy s v w k : parted (lkind lq) okAll s k v w -> properSplitBy lq s v w k.
Proof.
  intros (Hk & HP & pv & Hpv & HL & HH). split; [lia|]. split; [rewrite !contents_seg; exact HP|].
  intros i j Hi Hj. specialize (HL i Hi). specialize (HH j Hj).
  unfold Lo, TypedPart.Hi in *. cbn in *. apply negb_true_iff in HL, HH.
  destruct Hlt as (_ & [_ Ht] & _). eapply Ht; eassumption.
Qed.

Lemma swp_lswSplitShort lo hi v D : 0 <= lo -> 6 <= hi - lo + 1 -> hi < cap -> 11 * hi + 29 < 20 * wq ->
  swp (lswBody lt cap tn meanI) D (30 + Z.to_nat (cPartL (hi - lo + 1))) (reg (rng lo hi)) (reg (rng lo hi))
    (fun l _ w => properSplitBy lq (rng lo hi) v w (l - lo)) (lswSplitShort lo hi) v.
Proof.
  intros H0 Hl Hcap Hb. unfold lswSplitShort. apply swp_bind.
  eapply swp_apply; [apply (swp_pivotShort2 lt lq Hlt cap _ lo hi v D); assumption|lia|lia|auto|auto|].
  cbv beta. intros pv n1 v1 Hp _ Hn.
  eapply swp_apply; [apply (swp_partOne2 lt lq Hlt cap tn meanI 1 lo hi v pv v1 D); [lia|lia|lia|lia|exact Hp]|lia|lia|auto|auto|].
  cbv beta. intros l n2 w Hw _ _. apply parted_specBy. exact Hw.
Qed.

Lemma swp_lswSplitLong lo hi v D : meanEven meanI -> 0 <= lo -> 18 <= hi - lo + 1 -> hi < cap -> 11 * hi + 29 < 20 * wq ->
  swp (lswBody lt cap tn meanI) D (Z.to_nat cPivot2 + Z.to_nat (cPartL (hi - lo + 1))) (reg (rng lo hi)) (reg (rng lo hi))
    (fun l _ w => properSplitBy lq (rng lo hi) v w (l - lo)) (lswSplitLong lo hi) v.
Proof.
  intros HM H0 Hl Hcap Hb. unfold lswSplitLong. apply swp_bind.
  eapply swp_apply; [apply (swp_pivotLong lt lq Hlt cap tn meanI HM lo hi v D); assumption|lia|lia|auto|auto|].
  cbv beta. intros pv n1 v1 Hp _ Hn.
  eapply swp_apply; [apply (swp_partOne2 lt lq Hlt cap tn meanI 2 lo hi v pv v1 D); [lia|lia|lia|lia|exact Hp]|lia|lia|auto|auto|].
  cbv beta. intros l n2 w Hw _ _. apply parted_specBy. exact Hw.
Qed.

End Split.
