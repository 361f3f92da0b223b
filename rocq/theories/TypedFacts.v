(** * Further facts about the typed API: stability, splitting, checkers *)

From Coq Require Import List ZArith Lia Bool Permutation Sorted.
From Verif Require Import Lang SeqLogic ConcLogic Adequacy SeqAdequacy Base Scalar Typed SeqOps TypedPart TypedPivot
  TypedShort TypedSort Kinds Spec KindsFacts TypedApi TypedCheck Calls Guarantee Unique.
Import ListNotations.
Open Scope Z_scope.
Local Arguments Z.mul : simpl never.
Local Arguments Z.add : simpl never.
Local Arguments Z.sub : simpl never.
Local Arguments Z.pow : simpl never.

(** ** Stability *)

Lemma bubble_filter_on {U} (lt : U -> U -> bool) (X : U -> Prop) (f : U -> bool) l l' :
  (forall x y, X x -> X y -> f x = true -> f y = true -> lt x y = false) ->
  Forall X l -> bubble lt l l' -> filter f l' = filter f l.
Proof.
  intros Hf HX H. induction H as [l|l l1 x y l2 H IH Hlt]; [reflexivity|].
  rewrite <- (IH HX), !filter_app. f_equal. simpl.
  assert (HX' : Forall X (l1 ++ x :: y :: l2)).
  { eapply Permutation_Forall; [apply Permutation_sym; apply (bubble_perm _ _ _ H)|exact HX]. }
  apply Forall_app in HX'. destruct HX' as [_ HX']. inversion HX' as [|? ? X1 HX2]; subst. inversion HX2; subst.
  destruct (f y) eqn:Ey; destruct (f x) eqn:Ex; auto. rewrite Hf in Hlt by assumption. discriminate.
Qed.

Lemma stable_short pl tn opt e s m0 M k st r : platOk pl -> tuningOk pl tn -> typedSlice pl e m0 s ->
  Forall (fun x => ~ nan e x) (contents m0 s) ->
  let C := typedCall pl tn opt e s m0 in
  cLen C <= (if cFC C then maxLenInsFC tn else maxLenIns tn) ->
  reach C M k st -> returned st r -> stable e (contents m0 s) (contents (mem (sh st)) s).
Proof.
  intros Hpl Htn Hty HN C HL (mg0 & Hmg & He) Hr.
  assert (HW := wp_sortProg_stable pl Hpl tn Htn e opt s m0 0 MInit O Hty HN).
  assert (HB : bubble (ltT (kindOf pl e)) (contents m0 s) (contents (mem (sh st)) s)).
  { refine (proj1 (ad_return _ O _ M (cellsOf s) _ _ _ _ _ mg0 MInit Hmg (or_intror eq_refl) (HW _ _) _ k st r (fun _ _ _ h => h) He Hr)).
    - unfold cellsOf. apply (slice_finite pl _ _ Hpl). apply Hty.
    - unfold maxIns. unfold C, typedCall in HL. cbn [cLen cFC] in HL. destruct e; cbn in *; exact HL.
    - left; reflexivity. }
  intros p Hp. apply (bubble_filter_on (ltT (kindOf pl e)) (fun y => wellTyped pl e y /\ ~ nan e y)).
  - intros y z [Wy Ny] [Wz Nz] Py Pz. destruct (ltT (kindOf pl e) y z) eqn:E; [|reflexivity].
    apply (ltT_lt pl) in E; auto. destruct E as [_ E]. exfalso. apply E. apply Hp; assumption.
  - destruct Hty as [_ Hty]. rewrite Forall_forall in *. auto.
  - exact HB.
Qed.

(** ** Checkers on the machine *)

Lemma check_reach pl tn opt e s m0 mg0 M k st : platOk pl -> typedSlice pl e m0 s ->
  exec (procs pl tn e) M (cellsOf s) k (start (checkProg pl opt e s) m0 mg0) st ->
  thr st = [] /\ chans (sh st) = 0 /\ Z.of_nat k <= 8 * len s + 16 /\ ~ panicked st /\
  (forall x w, In (Some (x, w)) (accesses st) -> w = false /\ cellsOf s x) /\
  (forall i, cellsOf s i -> mem (sh st) i = m0 i) /\
  ((exists r, returned st r) \/ exists st', pstep (procs pl tn e) st st').
Proof.
  intros Hpl Hty He. assert (HS := swp_checkProg pl Hpl tn e opt s m0 O Hty).
  destruct (seq_safe _ _ _ M _ _ _ _ _ mg0 HS k st He) as (H1 & H2 & H3 & H4 & H5 & H6 & H7).
  assert (0 <= len s) by apply Hty.
  split; [exact H1|]. split; [exact H2|]. split; [unfold checkSteps in H3; lia|]. split; [exact H4|].
  split; [|split; [|exact H7]].
  - intros x w Hin. specialize (H5 x w Hin). destruct w; [contradiction H5|]. split; [reflexivity|exact H5].
  - intros i Hi. apply H6; [exact Hi|intros []].
Qed.

Lemma check_return pl tn opt e s m0 mg0 M k st r : platOk pl -> typedSlice pl e m0 s ->
  exec (procs pl tn e) M (cellsOf s) k (start (checkProg pl opt e s) m0 mg0) st -> returned st r ->
  if isFloat e then checkSpecF e opt s m0 r else checkSpec e s m0 r.
Proof.
  intros Hpl Hty He Hr. assert (HS := swp_checkProg pl Hpl tn e opt s m0 O Hty).
  destruct (seq_return _ _ _ M _ _ _ _ _ mg0 HS k st r He Hr) as (n & v & (-> & HQ) & _). exact HQ.
Qed.

Lemma contents_map {T} (w w' : Z -> T) s : (forall i, cellsOf s i -> w' i = w i) -> contents w' s = contents w s.
Proof.
  intro H. unfold contents. apply map_ext_in. intros n Hn. apply in_seq in Hn. apply H. unfold cellsOf. lia.
Qed.

Lemma inOrder_nonfloat_inv e opt l : isFloat e = false -> inOrder e opt l -> StronglySorted (le e) l.
Proof.
  intros Hf (a & x & b & -> & Ha & _ & Hb & HS & _).
  destruct a as [|y a]; [|inversion Ha; subst; exfalso; eapply nonfloat_nan; eauto].
  destruct b as [|y b]; [|inversion Hb; subst; exfalso; eapply nonfloat_nan; eauto].
  rewrite app_nil_r. exact HS.
Qed.

(** The checker applied to what the sorter left. *)
Lemma check_after_sort pl tn opt e s m0 M k st M' m1 mg1 k' st' r : platOk pl -> tuningOk pl tn ->
  typedSlice pl e m0 s -> sortable e opt (contents m0 s) ->
  reach (typedCall pl tn opt e s m0) M k st -> returned st tt ->
  (forall i, cellsOf s i -> m1 i = mem (sh st) i) ->
  exec (procs pl tn e) M' (cellsOf s) k' (start (checkProg pl opt e s) m1 mg1) st' -> returned st' r -> r = 0.
Proof.
  intros Hpl Htn Hty Hso HR Hret Hm He Hr.
  assert (HC := call_typed pl tn e opt s m0 Hty Hso).
  destruct (g_goal pl tn Hpl Htn _ HC M k st HR tt Hret) as [[HP HO] _].
  cbn [typedCall cGoal] in HP, HO.
  rewrite <- (contents_map _ m1 s Hm) in HP, HO.
  assert (Hty1 : typedSlice pl e m1 s).
  { destruct Hty as [G W]. split; [exact G|]. eapply Permutation_Forall; [apply Permutation_sym; exact HP|exact W]. }
  assert (HK := check_return pl tn opt e s m1 mg1 M' k' st' r Hpl Hty1 He Hr).
  destruct (isFloat e) eqn:Ef.
  - destruct HK as (K1 & K2 & _). destruct Hso as [E|[E|HN]].
    + apply K1; auto.
    + apply K1; auto.
    + destruct (Z.eq_dec opt 1); [apply K1; auto|]. destruct (Z.eq_dec opt (-1)); [apply K1; auto|].
      apply K2; auto. eapply Permutation_Forall; [apply Permutation_sym; exact HP|exact HN].
  - apply HK. apply (inOrder_nonfloat_inv e opt) in HO; [exact HO|exact Ef].
Qed.

(** ** One splitting step *)

Section Split.
Variable pl : plat.
Hypothesis Hpl : platOk pl.
Variable tn : tuning.
Variable e : ety.
Notation kd := (kindOf pl e).

Definition splitShort (s : slice) : cmd (proc (keyT e)) (elem e) Z :=
  Bind (pivotShort kd s) (fun pv => partOne kd s pv).
Definition splitLong (s : slice) : cmd (proc (keyT e)) (elem e) Z :=
  Bind (pivot kd s (nsamples kd nsLong)) (fun pv => partOne kd s pv).

Lemma okOn_typed s v : typedSlice pl e v s -> Forall (fun x => ~ nan e x) (contents v s) ->
  okOn kd (okKey pl e) s v.
Proof.
  intros [_ Hty] HN i Hi. rewrite contents_forall in Hty, HN. apply okKey_of; [apply Hty|apply HN]; exact Hi.
Qed.

Lemma parted_spec s v w k : typedSlice pl e v s -> Forall (fun x => ~ nan e x) (contents v s) ->
  parted kd (okKey pl e) s k v w -> properSplit e s v w k.
Proof.
  intros [Hgo Hty] HN (Hk & HP & pv & Hpv & HL & HH).
  assert (P : Permutation (contents w s) (contents v s)).
  { rewrite !contents_seg. apply HP. }
  split; [lia|]. split; [exact P|].
  assert (W' : Forall (wellTyped pl e) (contents w s)) by (eapply Permutation_Forall; [symmetry; exact P|exact Hty]).
  assert (N' : Forall (fun x => ~ nan e x) (contents w s)) by (eapply Permutation_Forall; [symmetry; exact P|exact HN]).
  rewrite contents_forall in W', N'. unfold cellsOf in *.
  intros i j Hi Hj.
  assert (LW := laws_all pl e Hpl).
  apply (le_leb pl e); [apply W'; lia|apply W'; lia|apply N'; lia|apply N'; lia|].
  apply (law_trans _ _ LW _ pv); [apply okKey_of; [apply W'; lia|apply N'; lia]|exact Hpv|apply okKey_of; [apply W'; lia|apply N'; lia]| |].
  - apply HL. lia.
  - apply HH. lia.
Qed.

Lemma swp_splitShort s v D : typedSlice pl e v s -> Forall (fun x => ~ nan e x) (contents v s) -> 9 <= len s ->
  swp (procs pl tn e) D (4 + Z.to_nat (cPart (len s))) (reg s) (reg s) (fun k _ w => properSplit e s v w k) (splitShort s) v.
Proof.
  intros Hty HN Hl. assert (Hok := okOn_typed s v Hty HN). assert (LW := laws_all pl e Hpl).
  unfold splitShort. apply swp_bind.
  eapply swp_use with (D1 := D); [apply (swp_pivotShort kd _ (okKey pl e) LW s v D); [lia|rewrite <- (intSize_eq pl); apply Hty|]|lia|lia|auto|intros x []|].
  { intros i Hi. apply Hok. unfold reg; lia. }
  intros pv m v' Hm (-> & Hp).
  eapply swp_use with (D1 := D); [apply (swp_partOne_proper kd tn (okKey pl e) LW s pv v D Hp Hok)|lia|lia|auto|auto|].
  intros k m' w _ Hw. apply parted_spec; assumption.
Qed.

Lemma swp_splitLong s v D : typedSlice pl e v s -> Forall (fun x => ~ nan e x) (contents v s) -> 16 <= len s ->
  swp (procs pl tn e) D (Z.to_nat cPivot + Z.to_nat (cPart (len s))) (reg s) (reg s) (fun k _ w => properSplit e s v w k) (splitLong s) v.
Proof.
  intros Hty HN Hl. assert (Hok := okOn_typed s v Hty HN). assert (LW := laws_all pl e Hpl).
  unfold splitLong. apply swp_bind.
  eapply swp_use with (D1 := D); [apply (swp_pivot kd _ (okKey pl e) LW s nsLong v D)|lia|lia|auto|intros x []|].
  { unfold nsLong. auto. }
  { unfold nsLong. lia. }
  { rewrite <- (intSize_eq pl). apply Hty. }
  { intros i Hi. apply Hok. unfold reg; lia. }
  intros pv m v' Hm (-> & Hp).
  eapply swp_use with (D1 := D); [apply (swp_partOne_proper kd tn (okKey pl e) LW s pv v D); [|exact Hok]|lia|lia|auto|auto|].
  { apply good_proper with (c := 3%nat); [lia|exact Hp]. }
  intros k m' w _ Hw. apply parted_spec; assumption.
Qed.

End Split.
