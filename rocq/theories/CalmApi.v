(** * SortSlice and SortLen on a slice that is already sorted *)

From Coq Require Import List ZArith Lia Bool Permutation Sorted.
From Verif Require Import Lang SeqLogic ConcLogic Base Scalar Typed SeqOps ScalarFacts TypedPart
  TypedShort ConcSort TypedLong TypedSort Kinds Spec KindsFacts TypedApi Calm CalmLong CalmSort.
Import ListNotations.
Open Scope Z_scope.
Local Arguments Z.mul : simpl never.
Local Arguments Z.add : simpl never.
Local Arguments Z.sub : simpl never.
Local Arguments Z.pow : simpl never.

(** ** NaN pre-pass with the NaNs where they belong *)

Section Pre.
Context {P T : Type}.
Variable body : P -> cmd P T unit.
Variable ne : T -> bool.
Notation none := (fun _ : Z => False).

Lemma swp_nanToEnd_calm s v k D : 0 <= k <= len s ->
  (forall i, 0 <= i < k -> ne (v (off s + i)) = false) -> (forall i, k <= i < len s -> ne (v (off s + i)) = true) ->
  swp body D (Z.to_nat (cPre (len s))) (reg s) none (fun s' _ w => w = v /\ s' = Slice (off s) k) (nanToEnd ne s) v.
Proof.
  intros Hk Hlo Hhi. unfold nanToEnd. apply swp_bind.
  eapply swp_conseq.
  - apply (swp_loop_var body D 5 (reg s) none (fun '(l, h) w => w = v /\ 0 <= l <= k /\ k - 1 <= h < len s)
      (fun '(l, h) => h + 1 - l) (fun h w => w = v /\ h = k - 1)).
    + intros [l h] w (-> & Hl & Hh).
      destruct (Z.leb_spec l h) as [C|C].
      * apply swp_bind. apply swp_sget; [lia|lia|unfold reg; lia|].
        destruct (ne (v (off s + h))) eqn:Ex.
        -- apply swp_ret. split; [|lia]. split; [reflexivity|]. split; [lia|].
           destruct (Z.eq_dec h (k - 1)) as [->|]; [|lia]. rewrite Hlo in Ex by lia. discriminate.
        -- assert (h < k). { destruct (Z.lt_ge_cases h k); [assumption|]. rewrite Hhi in Ex by lia. discriminate. }
           apply swp_bind. apply swp_sget; [lia|lia|unfold reg; lia|]. rewrite (Hlo l) by lia.
           apply swp_ret. split; [|lia]. split; [reflexivity|]. lia.
      * apply swp_ret. split; [reflexivity|lia].
    + split; [reflexivity|]. lia.
    + simpl. lia.
    + unfold cPre. simpl. lia.
  - cbv beta. intros h m w _ [-> ->]. apply swp_reslice; [lia|lia|lia|]. split; [reflexivity|]. f_equal; lia.
Qed.

Lemma swp_nanToStart_calm s v k D : 0 <= k <= len s ->
  (forall i, 0 <= i < k -> ne (v (off s + i)) = true) -> (forall i, k <= i < len s -> ne (v (off s + i)) = false) ->
  swp body D (Z.to_nat (cPre (len s))) (reg s) none (fun s' _ w => w = v /\ s' = Slice (off s + k) (len s - k)) (nanToStart ne s) v.
Proof.
  intros Hk Hlo Hhi. unfold nanToStart. apply swp_bind.
  eapply swp_conseq.
  - apply (swp_loop_var body D 5 (reg s) none (fun '(l, h) w => w = v /\ 0 <= l <= k /\ k - 1 <= h < len s)
      (fun '(l, h) => h + 1 - l) (fun l w => w = v /\ l = k)).
    + intros [l h] w (-> & Hl & Hh).
      destruct (Z.leb_spec l h) as [C|C].
      * apply swp_bind. apply swp_sget; [lia|lia|unfold reg; lia|].
        destruct (ne (v (off s + l))) eqn:Ex.
        -- apply swp_ret. split; [|lia]. split; [reflexivity|]. split; [|lia].
           destruct (Z.eq_dec l k) as [->|]; [|lia]. rewrite Hhi in Ex by lia. discriminate.
        -- assert (k <= l). { destruct (Z.lt_ge_cases l k); [|lia]. rewrite Hlo in Ex by lia. discriminate. }
           apply swp_bind. apply swp_sget; [lia|lia|unfold reg; lia|]. rewrite (Hhi h) by lia.
           apply swp_ret. split; [|lia]. split; [reflexivity|]. lia.
      * apply swp_ret. split; [reflexivity|lia].
    + split; [reflexivity|]. lia.
    + simpl. lia.
    + unfold cPre. simpl. lia.
  - cbv beta. intros h m w _ [-> ->]. apply swp_reslice; [lia|lia|lia|]. split; [reflexivity|]. f_equal; lia.
Qed.

End Pre.

(** A list in order, as positions. *)
Lemma app_inv_len {T} (a b c d : list T) : length a = length c -> a ++ b = c ++ d -> a = c /\ b = d.
Proof.
  revert c. induction a as [|x a IH]; intros [|y c] H E; try discriminate; [split; [reflexivity|exact E]|].
  cbn in *. injection E as -> E. injection H as H. destruct (IH c H E) as [-> ->]. auto.
Qed.

Lemma contents_app {T} (w : Z -> T) s l1 l2 : 0 <= len s -> contents w s = l1 ++ l2 ->
  let k := Z.of_nat (length l1) in
  0 <= k <= len s /\ l1 = contents w (Slice (off s) k) /\ l2 = contents w (Slice (off s + k) (len s - k)).
Proof.
  intros H0 E k.
  assert (L : forall s, length (contents w s) = Z.to_nat (len s)) by (intro; unfold contents; rewrite map_length, seq_length; reflexivity).
  assert (Hk : 0 <= k <= len s).
  { assert (E1 := f_equal (@length T) E). rewrite L, app_length in E1. lia. }
  split; [exact Hk|]. rewrite (contents_split w s k Hk) in E. apply app_inv_len in E; [destruct E as [E1 E2]; split; symmetry; assumption|].
  rewrite L. cbn [len]. lia.
Qed.

Section Api.
Variable pl : plat.
Hypothesis Hpl : platOk pl.
Hypothesis Hnear : meanNear (Wd := pword pl) (mI pl).
Variable tn : tuning.
Hypothesis Htn : tuningOk pl tn.
Variable e : ety.
Notation kd := (kindOf pl e).
Notation LW := (laws_all pl e Hpl).
Notation HIns := (tuning_ins kd tn Htn).
Notation HRec := (tuning_rec kd tn Htn).
Notation HRec2 := (tuning_rec2 kd tn Htn).
Variable bal : bool.
Hypothesis Hbal : bal = true -> maxRec kd tn < 2 ^ 32.

Definition calmSteps (n : Z) : Z := cCalm bal n + 6 * n + 20.

Lemma sorted_calm s v : (forall i, reg s i -> wellTyped pl e (v i) /\ ~ nan e (v i)) -> 
  StronglySorted (le e) (contents v s) -> calm kd (okKey pl e) s v.
Proof.
  intros Hty Hs. split.
  - intros i Hi. apply okKey_of; apply Hty; exact Hi.
  - intros i j Hi Hij Hj.
    destruct (Hty (off s + i)) as [W1 N1]; [unfold reg; lia|]. destruct (Hty (off s + j)) as [W2 N2]; [unfold reg; lia|].
    destruct (Z.eq_dec i j) as [->|].
    + rewrite (law_le _ _ LW); [|apply okKey_of; auto..].
      destruct (ltb kd (key kd (v (off s + j))) (key kd (v (off s + j)))) eqn:E; [|reflexivity].
      rewrite (law_asym _ _ LW _ _ (okKey_of pl e _ W2 N2) (okKey_of pl e _ W2 N2) E) in E. discriminate.
    + apply (le_leb pl e); auto. rewrite contents_seg in Hs. apply (sorted_ascending _ _ _ _ Hs); lia.
Qed.

Lemma wp_sortProg_calm opt s v sn0 md0 Dm :
  typedSlice pl e v s -> sortable e opt (contents v s) -> inOrder e opt (contents v s) ->
  md0 = MInit \/ (md0 = MSeq /\ len s < 2 * (maxRec kd tn + 1)) ->
  (Z.to_nat (Z.log2 (len s) + 2) <= Dm)%nat ->
  wp (Gr := calmGrain kd tn) (procs pl tn e) (wpT (Gr := calmGrain kd tn) (procs pl tn e) Dm) (Z.to_nat (Z.log2 (len s) + 2))
    (QM (fun _ _ => True)) (Z.to_nat (calmSteps (len s)))
    (sortProg pl tn opt e s) (Gst (reg s) (reg s) v md0 sn0).
Proof.
  intros [[H0 Hb] Hty] Hsrt Hin Hmd HDm. rewrite (intSize_eq pl) in Hb. unfold sortProg, sortLive, procs.
  rewrite contents_forall in Hty. assert (L0 := Z.log2_nonneg (len s)).
  assert (C0 := cCalm_pos bal (len s) H0).
  assert (Hlive : live (Gst (reg s) (reg s) v md0 sn0)).
  { unfold live. cbn [md]. destruct Hmd as [->|[-> _]]; exact I. }
  (* the rest, on a part of the slice *)
  assert (Go : forall s' n, 0 <= len s' <= len s -> (forall i, reg s' i -> reg s i) ->
    Forall (fun y => ~ nan e y) (contents v s') -> StronglySorted (le e) (contents v s') ->
    cCalm bal (len s) + 12 <= Z.of_nat n ->
    wp (Gr := calmGrain kd tn) (body kd tn) (wpT (Gr := calmGrain kd tn) (body kd tn) Dm) (Z.to_nat (Z.log2 (len s) + 2))
      (QM (fun _ _ => True)) n (sort kd tn (mI pl) s') (Gst (reg s) (reg s) v md0 sn0)).
  { intros s' n Hl Hsub Hnn Hss Hn. rewrite contents_forall in Hnn.
    assert (Hl2 : Z.log2 (len s') <= Z.log2 (len s)) by (apply Z.log2_le_mono; lia).
    assert (Hc : cCalm bal (len s') <= cCalm bal (len s)).
    { unfold cCalm, cLog, cSort. assert (L1 := Z.log2_nonneg (len s')). destruct bal; nia. }
    eapply wp_more.
    - apply (wp_sort_calm kd tn (mI pl) (okKey pl e) LW bal HIns HRec Hbal (meanOk_of pl Hpl) Hnear Dm HRec2 (reg s) s' v sn0 md0).
      + exact Hsub.
      + lia.
      + lia.
      + apply sorted_calm; [|exact Hss]. intros i Hi. split; [apply Hty, Hsub, Hi|apply Hnn, Hi].
      + destruct Hmd as [->|[-> Hmd]]; [auto|right; split; [auto|lia]].
      + lia.
    - lia.
    - lia.
    - intros [] m g' _ Hq. exact Hq. }
  destruct Hin as (a & x & b & E & Ha & Hx & Hbb & Hs & H1 & H2).
  destruct (isFloat e) eqn:Ef.
  2:{ assert (a = []). { destruct a as [|y a]; [reflexivity|]. inversion Ha; subst. exfalso. eapply nonfloat_nan; eauto. }
      assert (b = []). { destruct b as [|y b]; [reflexivity|]. inversion Hbb; subst. exfalso. eapply nonfloat_nan; eauto. }
      subst a b. rewrite app_nil_r in E. cbn [app] in E. rewrite <- E in Hx, Hs.
      apply Go; [lia|auto|exact Hx|exact Hs|unfold calmSteps; lia]. }
  unfold prepass, NaNlarge, NaNsmall. apply wp_bind.
  assert (Hne : forall y, nan e y -> selfNe e y = true) by (intros y Hy; apply selfNe_nan; exact Hy).
  assert (Hne2 : forall y, ~ nan e y -> selfNe e y = false).
  { intros y Hy. destruct (selfNe e y) eqn:Ey; [|reflexivity]. apply selfNe_nan in Ey. contradiction. }
  destruct (Z.eqb_spec opt 1) as [->|N1].
  - rewrite (H1 eq_refl) in E. cbn [app] in E. destruct (contents_app v s x b H0 E) as (Hk & Ex & Eb).
    set (k := Z.of_nat (length x)) in *. rewrite Ex in Hx, Hs. rewrite Eb in Hbb.
    assert (Hx' := Hx). rewrite contents_forall in Hx', Hbb. unfold cellsOf in Hx', Hbb. cbn [off len] in Hx', Hbb.
    eapply wp_rapply with (D1 := O); [exact Hlive|apply (swp_nanToEnd_calm (body kd tn) (selfNe e) s v k); [exact Hk| |]
      |lia| |auto|].
    + intros i Hi. apply Hne2, Hx'. lia.
    + intros i Hi. apply Hne, Hbb. lia.
    + unfold calmSteps, cPre. lia.
    + cbv beta. cbn [setval val dom rd md seen]. intros s' n v' [-> ->] _ Hn.
      apply Go; [cbn [len]; lia| |exact Hx|exact Hs|unfold calmSteps, cPre in *; lia].
      unfold reg. cbn [off len]. intros; lia.
  - destruct (Z.eqb_spec opt (-1)) as [->|N2].
    + rewrite (H2 eq_refl), app_nil_r in E. destruct (contents_app v s a x H0 E) as (Hk & Ea & Ex).
      set (k := Z.of_nat (length a)) in *. rewrite Ex in Hx, Hs. rewrite Ea in Ha.
      assert (Hx' := Hx). rewrite contents_forall in Hx', Ha. unfold cellsOf in Hx', Ha. cbn [off len] in Hx', Ha.
      eapply wp_rapply with (D1 := O); [exact Hlive|apply (swp_nanToStart_calm (body kd tn) (selfNe e) s v k); [exact Hk| |]
        |lia| |auto|].
      * intros i Hi. apply Hne, Ha. lia.
      * intros i Hi. apply Hne2, Hx'. lia.
      * unfold calmSteps, cPre. lia.
      * cbv beta. cbn [setval val dom rd md seen]. intros s' n v' [-> ->] _ Hn.
        apply Go; [cbn [len]; lia| |exact Hx|exact Hs|unfold calmSteps, cPre in *; lia].
        unfold reg. cbn [off len]. intros; lia.
    + destruct Hsrt as [Hsrt|[Hsrt|Hnn]]; [contradiction..|].
      rewrite E in Hnn. apply Forall_app in Hnn as [Na Hnn]. apply Forall_app in Hnn as [_ Nb].
      assert (a = []). { destruct a as [|y a]; [reflexivity|]. inversion Ha; inversion Na; subst. contradiction. }
      assert (b = []). { destruct b as [|y b]; [reflexivity|]. inversion Hbb; inversion Nb; subst. contradiction. }
      subst a b. rewrite app_nil_r in E. cbn [app] in E. rewrite <- E in Hx, Hs.
      apply wp_ret. apply Go; [lia|auto|exact Hx|exact Hs|unfold calmSteps; lia].
Qed.

End Api.
