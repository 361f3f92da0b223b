(** * Partitioning functions of sortyLsw.go *)

From Coq Require Import List ZArith Lia Bool Permutation.
From Verif Require Import Lang SeqLogic Base Scalar Typed SeqOps ScalarFacts TypedPart TypedPivot
  TypedShort Spec Lsw LswSeq.
Import ListNotations.
Open Scope Z_scope.

Local Arguments Z.mul : simpl never.
Local Arguments Z.add : simpl never.
Local Arguments Z.sub : simpl never.
Local Arguments Z.pow : simpl never.

Section Part.
Context {Wd : word}.
Context {T : Type}.
Variables lt lq : T -> T -> bool.
Hypothesis Hlt : consistent lt lq.
Variable cap : Z.
Variable body : lproc -> cmd lproc T unit.
Notation swp := (swp body).

(** ** partOne on the cells a..b with the pivot in cell p *)
Section One.
Variables a b p : Z.
Hypothesis Ha : 0 <= a.
Hypothesis Hab : a <= b + 1.
Hypothesis Hb : b < cap.
Hypothesis Hp : 0 <= p < cap.

Definition rdOne (i : Z) : Prop := a <= i <= b \/ i = p.
Definition wrOne (i : Z) : Prop := a <= i <= b /\ i <> p.

Definition onePost2 (v0 : Z -> T) (k : Z) (v : Z -> T) : Prop :=
  a <= k <= b + 1 /\ permR a (b + 1) v0 v /\ v p = v0 p /\
  (forall i, a <= i < k -> lq (v0 p) (v i) = false) /\
  (forall i, k <= i <= b -> lq (v i) (v0 p) = false).

Definition oneInv2 (v0 : Z -> T) (st : label) (v : Z -> T) : Prop :=
  permR a (b + 1) v0 v /\ v p = v0 p /\
  match st with
  | LStart l h | LLast l h => a <= l /\ h <= b /\ l - 1 <= h /\
      (forall i, a <= i < l -> lq (v0 p) (v i) = false) /\
      (forall i, h < i <= b -> lq (v i) (v0 p) = false) /\
      match st with LLast _ _ => h <= l | _ => True end
  | LScan l h => a <= l < h /\ h <= b /\
      (forall i, a <= i < l -> lq (v0 p) (v i) = false) /\
      (forall i, h < i <= b -> lq (v i) (v0 p) = false) /\ lt (v h) (v0 p) = true
  | LSecond l h => a <= l < h /\ h <= b /\
      (forall i, a <= i < l -> lq (v0 p) (v i) = false) /\
      (forall i, h <= i <= b -> lq (v i) (v0 p) = false) /\ lt (v0 p) (v l) = true
  | LNext l h => a <= l < h /\ h <= b /\
      (forall i, a <= i <= l -> lq (v0 p) (v i) = false) /\
      (forall i, h <= i <= b -> lq (v i) (v0 p) = false)
  | LSwap _ _ => False
  end.

Definition oneMu2 (st : label) : Z :=
  match st with
  | LStart l h => 3 * (h - l + 2) + 3
  | LSecond l h | LScan l h => 3 * (h - l + 2) + 2
  | LNext l h => 3 * (h - l + 2) + 1
  | LLast l h | LSwap l h => 0
  end.

Definition cPartL (n : Z) : Z := 21 * n + 70.

Lemma swp_lswPartOne v0 D :
  swp D (Z.to_nat (cPartL (b - a + 1))) rdOne wrOne (fun k _ v' => onePost2 v0 k v')
    (lswPartOne lt cap a p b) v0.
Proof.
  unfold lswPartOne.
  apply (swp_loop_var body D 6 rdOne wrOne (oneInv2 v0) oneMu2 (onePost2 v0)).
  2:{ split; [apply permR_refl|]. split; [reflexivity|]. repeat split; try lia; intros; lia. }
  2:{ cbn [oneMu2]. lia. }
  2:{ cbn [oneMu2]. unfold cPartL. lia. }
  set (x := v0 p).
  assert (Rp : rdOne p) by (right; reflexivity).
  assert (Rin : forall i, a <= i <= b -> rdOne i) by (intros; left; lia).
  intros st v (Hpm & Hvp & Hst). fold x in Hvp.
  (* exchanging a large element at l with a small one at h *)
  assert (SW : forall l h, a <= l < h -> h <= b ->
    (forall i, a <= i < l -> lq x (v i) = false) -> (forall i, h < i <= b -> lq (v i) x = false) ->
    lt x (v l) = true -> lt (v h) x = true ->
    wrOne h /\ wrOne l /\ oneInv2 v0 (LNext l h) (swapv v h l)).
  { intros l h Hl Hh HL HH E1 E2.
    assert (Hlp : l <> p). { intros ->. rewrite Hvp, (lt_irr lt lq Hlt) in E1. discriminate. }
    assert (Hhp : h <> p). { intros ->. rewrite Hvp, (lt_irr lt lq Hlt) in E2. discriminate. }
    split; [split; lia|]. split; [split; lia|].
    split; [eapply permR_trans; [exact Hpm|apply permR_swap; lia]|].
    split; [rewrite swapv_o by lia; exact Hvp|]. split; [lia|]. split; [lia|]. split.
    - intros i Hi. destruct (Z.eq_dec i l) as [->|].
      + rewrite swapv_r. apply (lt_asym lt lq Hlt). exact E2.
      + rewrite swapv_o by lia. apply HL; lia.
    - intros i Hi. destruct (Z.eq_dec i h) as [->|].
      + rewrite swapv_l. apply (lt_asym lt lq Hlt). exact E1.
      + rewrite swapv_o by lia. apply HH; lia. }
  destruct st as [l h|l h|l h|l h|l h|l h].
  - (* second *)
    destruct Hst as (Hl & Hh & HL & HH & Hs). fold x in HL, HH, Hs. cbv zeta.
    destruct (Z.leb_spec (h - 1) l) as [C|C].
    + apply swp_ret. split; [lia|]. split; [exact Hpm|]. split; [exact Hvp|]. split; [exact HL|].
      intros i Hi. destruct (Z.eq_dec i l) as [->|]; [apply (lt_asym lt lq Hlt); exact Hs|apply HH; lia].
    + apply swp_bind, swp_lsw; [lia|lia|lia|lia|lia|apply Rin; lia|exact Rp|lia| | |].
      * rewrite Hvp. intro E.
        destruct (SW l (h - 1)) as (W1 & W2 & _); try assumption; try lia.
        { intros i Hi. apply HH; lia. }
        split; [apply Rin; lia|]. split; [apply Rin; lia|]. split; assumption.
      * rewrite Hvp. intro E.
        destruct (SW l (h - 1)) as (W1 & W2 & I); try assumption; try lia.
        { intros i Hi. apply HH; lia. }
        apply swp_ret. split; [exact I|cbn [oneMu2]; lia].
      * rewrite Hvp. intro E. apply swp_ret. split; [|cbn [oneMu2]; lia].
        split; [exact Hpm|]. split; [exact Hvp|]. split; [lia|]. split; [lia|]. split; [exact HL|].
        split; [|exact Hs]. intros i Hi. destruct (Z.eq_dec i (h - 1)) as [->|]; [apply (lt_weak lt lq Hlt); exact E|apply HH; lia].
  - contradiction.
  - (* next *)
    destruct Hst as (Hl & Hh & HL & HH). apply swp_ret. split; [|cbn [oneMu2]; lia].
    split; [exact Hpm|]. split; [exact Hvp|]. split; [lia|]. split; [lia|]. split; [lia|].
    split; [intros; apply HL; lia|]. split; [intros; apply HH; lia|exact I].
  - (* start *)
    destruct Hst as (Hl & Hh & Hlh & HL & HH & _). fold x in HL, HH.
    destruct (Z.ltb_spec l h) as [C|C].
    2:{ apply swp_ret. split; [|cbn [oneMu2]; lia]. split; [exact Hpm|]. split; [exact Hvp|].
        repeat split; auto. }
    apply swp_bind, swp_test; [lia|lia|lia|lia|apply Rin; lia|exact Rp|]. rewrite Hvp.
    intros [|] E.
    + apply swp_ret. split; [|cbn [oneMu2]; lia]. split; [exact Hpm|]. split; [exact Hvp|].
      repeat split; auto; lia.
    + apply swp_bind, swp_test; [lia|lia|lia|lia|exact Rp|apply Rin; lia|]. rewrite Hvp.
      intros [|] E2; apply swp_ret; (split; [|cbn [oneMu2]; lia]); (split; [exact Hpm|]); (split; [exact Hvp|]).
      * split; [lia|]. split; [lia|]. split; [exact HL|]. split; [|exact E2].
        intros i Hi. destruct (Z.eq_dec i h) as [->|]; [apply (lt_weak lt lq Hlt); exact E|apply HH; lia].
      * split; [lia|]. split; [lia|]. split.
        -- intros i Hi. destruct (Z.eq_dec i l) as [->|]; [apply (lt_weak lt lq Hlt); exact E2|apply HL; lia].
        -- intros i Hi. destruct (Z.eq_dec i h) as [->|]; [apply (lt_weak lt lq Hlt); exact E|apply HH; lia].
  - (* scan *)
    destruct Hst as (Hl & Hh & HL & HH & Hs). fold x in HL, HH, Hs.
    apply swp_bind, swp_lsw; [lia|lia|lia|lia|lia|exact Rp|apply Rin; lia|lia| | |].
    + rewrite Hvp. intro E. destruct (SW l h) as (W1 & W2 & _); try assumption.
      split; [apply Rin; lia|]. split; [apply Rin; lia|]. split; assumption.
    + rewrite Hvp. intro E. destruct (SW l h) as (W1 & W2 & I); try assumption.
      apply swp_ret. split; [exact I|cbn [oneMu2]; lia].
    + rewrite Hvp. intro E. cbv zeta.
      assert (HL' : forall i, a <= i < l + 1 -> lq x (v i) = false).
      { intros i Hi. destruct (Z.eq_dec i l) as [->|]; [apply (lt_weak lt lq Hlt); exact E|apply HL; lia]. }
      destruct (Z.leb_spec h (l + 1)) as [C|C]; apply swp_ret.
      * split; [lia|]. split; [exact Hpm|]. split; [exact Hvp|]. split.
        -- intros i Hi. destruct (Z.eq_dec i h) as [->|]; [apply (lt_asym lt lq Hlt); exact Hs|apply HL'; lia].
        -- intros i Hi. apply HH; lia.
      * split; [|cbn [oneMu2]; lia]. split; [exact Hpm|]. split; [exact Hvp|].
        split; [lia|]. split; [lia|]. auto.
  - (* last *)
    destruct Hst as (Hl & Hh & Hlh & HL & HH & C). fold x in HL, HH.
    destruct (Z.eqb_spec l h) as [E|E]; [destruct (Z.eqb_spec h p) as [E2|E2]|]; cbn [negb andb].
    + apply swp_ret. split; [lia|]. split; [exact Hpm|]. split; [exact Hvp|]. split; [exact HL|].
      intros i Hi. destruct (Z.eq_dec i p) as [->|]; [fold x; rewrite Hvp; apply (lq_irr lt lq Hlt)|apply HH; lia].
    + apply swp_bind, swp_test; [lia|lia|lia|lia|apply Rin; lia|exact Rp|]. rewrite Hvp.
      intros [|] E3; apply swp_ret; (split; [lia|]); (split; [exact Hpm|]); (split; [exact Hvp|]).
      * split; [|intros; apply HH; lia]. intros i Hi.
        destruct (Z.eq_dec i h) as [->|]; [apply (lt_asym lt lq Hlt); exact E3|apply HL; lia].
      * split; [exact HL|]. intros i Hi. destruct (Z.eq_dec i h) as [->|]; [apply (lt_weak lt lq Hlt); exact E3|apply HH; lia].
    + apply swp_ret. split; [lia|]. split; [exact Hpm|]. split; [exact Hvp|]. split; [exact HL|].
      intros; apply HH; lia.
Qed.

End One.

(** ** partTwo on the cells a..l0 and h0..b *)
Section Two.
Variables a l0 h0 b p : Z.
Hypothesis Ha : 0 <= a.
Hypothesis Hl0 : a <= l0.
Hypothesis Hlh : l0 < h0.
Hypothesis Hh0 : h0 <= b.
Hypothesis Hb : b < cap.
Hypothesis Hp : 0 <= p < cap.

Definition outer (i : Z) : Prop := a <= i <= l0 \/ h0 <= i <= b.
Definition rdTwo (i : Z) : Prop := outer i \/ i = p.
Definition wrTwo (i : Z) : Prop := outer i /\ i <> p.
Definition cells2 : list Z := zrange a (l0 + 1) ++ zrange h0 (b + 1).

Lemma cells2_In i : In i cells2 <-> outer i.
Proof. unfold cells2, outer. rewrite in_app_iff, !In_zrange. lia. Qed.

Lemma cells2_NoDup : NoDup cells2.
Proof.
  unfold cells2. generalize (NoDup_zrange a (l0 + 1)). generalize (NoDup_zrange h0 (b + 1)).
  intros H2. assert (D : forall x, In x (zrange a (l0 + 1)) -> ~ In x (zrange h0 (b + 1))).
  { intros x. rewrite !In_zrange. lia. }
  revert D. induction (zrange a (l0 + 1)) as [|x L IH]; intros D H1; simpl; [exact H2|].
  inversion H1; subst. constructor.
  - rewrite in_app_iff. intros [?|Hx]; [contradiction|]. apply (D x); [left; reflexivity|exact Hx].
  - apply IH; [|assumption]. intros y Hy. apply D. right; exact Hy.
Qed.

Definition twoPost2 (v0 : Z -> T) (r : Z) (v : Z -> T) : Prop :=
  permL cells2 v0 v /\ v p = v0 p /\
  ((a <= r <= l0 /\
    (forall i, r < i <= l0 -> lq (v0 p) (v i) = false) /\
    (forall i, h0 <= i <= b -> lq (v i) (v0 p) = false))
   \/
   (h0 <= r <= b + 1 /\
    (forall i, a <= i <= l0 -> lq (v0 p) (v i) = false) /\
    (forall i, h0 <= i < r -> lq (v i) (v0 p) = false))).

Definition twoInv2 (v0 : Z -> T) (st : label) (v : Z -> T) : Prop :=
  permL cells2 v0 v /\ v p = v0 p /\
  match st with
  | LStart l h => a <= l <= l0 /\ h0 <= h <= b /\
      (forall i, l < i <= l0 -> lq (v0 p) (v i) = false) /\
      (forall i, h0 <= i < h -> lq (v i) (v0 p) = false)
  | LScan l h => a <= l <= l0 /\ h0 <= h <= b /\
      (forall i, l < i <= l0 -> lq (v0 p) (v i) = false) /\
      (forall i, h0 <= i < h -> lq (v i) (v0 p) = false) /\ lt (v h) (v0 p) = true
  | LSecond l h => a <= l <= l0 /\ h0 <= h <= b /\
      (forall i, l < i <= l0 -> lq (v0 p) (v i) = false) /\
      (forall i, h0 <= i <= h -> lq (v i) (v0 p) = false) /\ lt (v0 p) (v l) = true
  | LNext l h => a <= l <= l0 /\ h0 <= h <= b /\
      (forall i, l <= i <= l0 -> lq (v0 p) (v i) = false) /\
      (forall i, h0 <= i <= h -> lq (v i) (v0 p) = false)
  | LSwap _ _ | LLast _ _ => False
  end.

Definition twoMu2 (st : label) : Z :=
  match st with
  | LStart l h => 3 * (l - a + b - h + 2) + 3
  | LSecond l h | LScan l h => 3 * (l - a + b - h + 2) + 2
  | LNext l h => 3 * (l - a + b - h + 2) + 1
  | LLast l h | LSwap l h => 0
  end.

Lemma swp_lswPartTwo v0 D :
  swp D (Z.to_nat (cPartL (b - a + 1))) rdTwo wrTwo (fun r _ v' => twoPost2 v0 r v')
    (lswPartTwo lt cap a l0 p h0 b) v0.
Proof.
  unfold lswPartTwo.
  apply (swp_loop_var body D 6 rdTwo wrTwo (twoInv2 v0) twoMu2 (twoPost2 v0)).
  2:{ split; [apply permL_refl|]. split; [reflexivity|]. repeat split; try lia; intros; lia. }
  2:{ cbn [twoMu2]. lia. }
  2:{ cbn [twoMu2]. unfold cPartL. lia. }
  set (x := v0 p).
  assert (Rp : rdTwo p) by (right; reflexivity).
  assert (RL : forall i, a <= i <= l0 -> rdTwo i) by (intros; left; unfold outer; lia).
  assert (RH : forall i, h0 <= i <= b -> rdTwo i) by (intros; left; unfold outer; lia).
  intros st v (Hpm & Hvp & Hst). fold x in Hvp.
  assert (SW : forall l h, a <= l <= l0 -> h0 <= h <= b ->
    (forall i, l < i <= l0 -> lq x (v i) = false) -> (forall i, h0 <= i < h -> lq (v i) x = false) ->
    lt x (v l) = true -> lt (v h) x = true ->
    wrTwo h /\ wrTwo l /\ twoInv2 v0 (LNext l h) (swapv v h l)).
  { intros l h Hl Hh HL HH E1 E2.
    assert (Hlp : l <> p). { intros ->. rewrite Hvp, (lt_irr lt lq Hlt) in E1. discriminate. }
    assert (Hhp : h <> p). { intros ->. rewrite Hvp, (lt_irr lt lq Hlt) in E2. discriminate. }
    split; [split; [unfold outer; lia|lia]|]. split; [split; [unfold outer; lia|lia]|].
    split; [eapply permL_trans; [exact Hpm|apply permL_swap;
      [apply cells2_NoDup|apply cells2_In; unfold outer; lia..]]|].
    split; [rewrite swapv_o by lia; exact Hvp|]. split; [lia|]. split; [lia|]. split.
    - intros i Hi. destruct (Z.eq_dec i l) as [->|].
      + rewrite swapv_r. apply (lt_asym lt lq Hlt). exact E2.
      + rewrite swapv_o by lia. apply HL; lia.
    - intros i Hi. destruct (Z.eq_dec i h) as [->|].
      + rewrite swapv_l. apply (lt_asym lt lq Hlt). exact E1.
      + rewrite swapv_o by lia. apply HH; lia. }
  destruct st as [l h|l h|l h|l h|l h|l h]; try contradiction.
  - (* second *)
    destruct Hst as (Hl & Hh & HL & HH & Hs). fold x in HL, HH, Hs. cbv zeta.
    destruct (Z.ltb_spec b (h + 1)) as [C|C].
    + apply swp_ret. split; [exact Hpm|]. split; [exact Hvp|]. left. split; [lia|].
      split; [exact HL|]. intros i Hi. apply HH; lia.
    + apply swp_bind, swp_lsw; [lia|lia|lia|lia|lia|apply RH; lia|exact Rp|lia| | |].
      * rewrite Hvp. intro E. destruct (SW l (h + 1)) as (W1 & W2 & _); try assumption; try lia.
        { intros i Hi. apply HH; lia. }
        split; [apply RH; lia|]. split; [apply RL; lia|]. split; assumption.
      * rewrite Hvp. intro E. destruct (SW l (h + 1)) as (W1 & W2 & I); try assumption; try lia.
        { intros i Hi. apply HH; lia. }
        apply swp_ret. split; [exact I|cbn [twoMu2]; lia].
      * rewrite Hvp. intro E. apply swp_ret. split; [|cbn [twoMu2]; lia].
        split; [exact Hpm|]. split; [exact Hvp|]. split; [lia|]. split; [lia|]. split; [exact HL|].
        split; [|exact Hs]. intros i Hi. destruct (Z.eq_dec i (h + 1)) as [->|]; [apply (lt_weak lt lq Hlt); exact E|apply HH; lia].
  - (* next *)
    destruct Hst as (Hl & Hh & HL & HH). fold x in HL, HH. cbv zeta.
    destruct (Z.ltb_spec (l - 1) a) as [C|C].
    { apply swp_ret. split; [exact Hpm|]. split; [exact Hvp|]. right. split; [lia|].
      split; intros; [apply HL; lia|apply HH; lia]. }
    destruct (Z.ltb_spec b (h + 1)) as [C2|C2].
    { apply swp_ret. split; [exact Hpm|]. split; [exact Hvp|]. left. split; [lia|].
      split; intros; [apply HL; lia|apply HH; lia]. }
    apply swp_ret. split; [|cbn [twoMu2]; lia]. split; [exact Hpm|]. split; [exact Hvp|].
    split; [lia|]. split; [lia|]. split; intros; [apply HL; lia|apply HH; lia].
  - (* start *)
    destruct Hst as (Hl & Hh & HL & HH). fold x in HL, HH.
    apply swp_bind, swp_test; [lia|lia|lia|lia|apply RH; lia|exact Rp|]. rewrite Hvp.
    intros [|] E.
    + apply swp_ret. split; [|cbn [twoMu2]; lia]. split; [exact Hpm|]. split; [exact Hvp|].
      repeat split; auto; lia.
    + apply swp_bind, swp_test; [lia|lia|lia|lia|exact Rp|apply RL; lia|]. rewrite Hvp.
      intros [|] E2; apply swp_ret; (split; [|cbn [twoMu2]; lia]); (split; [exact Hpm|]); (split; [exact Hvp|]).
      * split; [lia|]. split; [lia|]. split; [exact HL|]. split; [|exact E2].
        intros i Hi. destruct (Z.eq_dec i h) as [->|]; [apply (lt_weak lt lq Hlt); exact E|apply HH; lia].
      * split; [lia|]. split; [lia|]. split.
        -- intros i Hi. destruct (Z.eq_dec i l) as [->|]; [apply (lt_weak lt lq Hlt); exact E2|apply HL; lia].
        -- intros i Hi. destruct (Z.eq_dec i h) as [->|]; [apply (lt_weak lt lq Hlt); exact E|apply HH; lia].
  - (* scan *)
    destruct Hst as (Hl & Hh & HL & HH & Hs). fold x in HL, HH, Hs.
    apply swp_bind, swp_lsw; [lia|lia|lia|lia|lia|exact Rp|apply RL; lia|lia| | |].
    + rewrite Hvp. intro E. destruct (SW l h) as (W1 & W2 & _); try assumption.
      split; [apply RH; lia|]. split; [apply RL; lia|]. split; assumption.
    + rewrite Hvp. intro E. destruct (SW l h) as (W1 & W2 & I); try assumption.
      apply swp_ret. split; [exact I|cbn [twoMu2]; lia].
    + rewrite Hvp. intro E. cbv zeta.
      assert (HL' : forall i, l - 1 < i <= l0 -> lq x (v i) = false).
      { intros i Hi. destruct (Z.eq_dec i l) as [->|]; [apply (lt_weak lt lq Hlt); exact E|apply HL; lia]. }
      destruct (Z.ltb_spec (l - 1) a) as [C|C]; apply swp_ret.
      * split; [exact Hpm|]. split; [exact Hvp|]. right. split; [lia|].
        split; [intros; apply HL'; lia|exact HH].
      * split; [|cbn [twoMu2]; lia]. split; [exact Hpm|]. split; [exact Hvp|].
        split; [lia|]. split; [lia|]. auto.
Qed.

End Two.

(** ** Closing the gap *)
Section Gap.
Variables a b : Z.
Hypothesis Ha : 0 <= a.
Hypothesis Hb : b < cap.
Let R (i : Z) : Prop := a <= i <= b.

Definition gapPost (x : T) (v0 : Z -> T) (k : Z) (v : Z -> T) : Prop :=
  a <= k <= b + 1 /\ permR a (b + 1) v0 v /\
  (forall i, a <= i < k -> lq x (v i) = false) /\
  (forall i, k <= i <= b -> lq (v i) x = false).

Definition cGapL (n : Z) : Z := 7 * n + 14.

Lemma swp_lswGapLow v0 r0 k0 p0 x D :
  a <= b + 1 -> a <= r0 + 1 -> r0 < k0 -> k0 <= b + 1 -> a <= p0 <= b -> v0 p0 = x ->
  (forall i, r0 < i < k0 -> lq x (v0 i) = false) ->
  (forall i, k0 <= i <= b -> lq (v0 i) x = false) ->
  swp D (Z.to_nat (cGapL (b - a + 1))) R R (fun k _ v => gapPost x v0 k v)
    (lswGapLow lt cap a r0 k0 p0) v0.
Proof.
  intros Hab Hr0 Hrk Hk0 Hp0 Hx HL0 HH0. unfold lswGapLow.
  apply (swp_loop_var body D 6 R R
    (fun '(r, k, p) v => permR a (b + 1) v0 v /\ a <= p <= b /\ v p = x /\
       a - 1 <= r <= r0 /\ r < k <= k0 /\
       (forall i, r < i < k -> lq x (v i) = false) /\
       (forall i, k <= i <= b -> lq (v i) x = false))
    (fun '(r, k, p) => r - a + 1) (gapPost x v0)).
  2:{ split; [apply permR_refl|]. repeat split; auto; lia. }
  2:{ lia. }
  2:{ unfold cGapL. lia. }
  intros [[r k] p] v (Hpm & Hp & Hvp & Hr & Hk & HL & HH).
  destruct (Z.leb_spec a r) as [C|C].
  2:{ apply swp_ret. split; [lia|]. split; [exact Hpm|]. split; [intros; apply HL; lia|exact HH]. }
  destruct (Z.eq_dec (k - 1) r) as [Ek|Ek].
  - (* no gap: only a comparison *)
    rewrite Ek. apply swp_bind, swp_test; [lia|lia|lia|lia|unfold R; lia|unfold R; lia|]. rewrite Hvp.
    intros [|] E; cbv zeta.
    + apply swp_ret.
      assert (Hrp : r <> p). { intros ->. rewrite Hvp, (lt_irr lt lq Hlt) in E. discriminate. }
      destruct (Z.eqb_spec r p); [contradiction|]. split; [|lia].
      split; [exact Hpm|]. split; [lia|]. split; [exact Hvp|]. split; [lia|]. split; [lia|].
      split; [intros; lia|]. intros i Hi.
      destruct (Z.eq_dec i r) as [->|]; [apply (lt_asym lt lq Hlt); exact E|apply HH; lia].
    + apply swp_ret. split; [|lia]. split; [exact Hpm|]. split; [lia|]. split; [exact Hvp|].
      split; [lia|]. split; [lia|]. split; [|exact HH]. intros i Hi.
      destruct (Z.eq_dec i r) as [->|]; [apply (lt_weak lt lq Hlt); exact E|apply HL; lia].
  - apply swp_bind, swp_lsw; [lia|lia|lia|lia|lia|unfold R; lia|unfold R; lia|exact Ek| | |]; rewrite Hvp.
    + intros _. unfold R. lia.
    + intro E. cbv zeta. apply swp_ret.
      assert (Hrp : r <> p). { intros ->. rewrite Hvp, (lt_irr lt lq Hlt) in E. discriminate. }
      split; [|lia].
      split; [eapply permR_trans; [exact Hpm|apply permR_swap; lia]|].
      split; [destruct (Z.eqb_spec (k - 1) p); lia|]. split.
      { destruct (Z.eqb_spec (k - 1) p) as [Ep|Ep].
        - rewrite swapv_r, Ep. exact Hvp.
        - rewrite swapv_o by lia. exact Hvp. }
      split; [lia|]. split; [lia|]. split.
      * intros i Hi. destruct (Z.eq_dec i r) as [->|].
        { rewrite swapv_r. apply HL; lia. }
        rewrite swapv_o by lia. apply HL; lia.
      * intros i Hi. destruct (Z.eq_dec i (k - 1)) as [->|].
        { rewrite swapv_l. apply (lt_asym lt lq Hlt). exact E. }
        rewrite swapv_o by lia. apply HH; lia.
    + intro E. apply swp_ret. split; [|lia]. split; [exact Hpm|]. split; [lia|]. split; [exact Hvp|].
      split; [lia|]. split; [lia|]. split; [|exact HH]. intros i Hi.
      destruct (Z.eq_dec i r) as [->|]; [apply (lt_weak lt lq Hlt); exact E|apply HL; lia].
Qed.

Lemma swp_lswGapHigh v0 r0 k0 p0 x D :
  a <= k0 -> k0 <= r0 -> r0 <= b + 1 -> a <= p0 <= b -> v0 p0 = x ->
  (forall i, a <= i < k0 -> lq x (v0 i) = false) ->
  (forall i, k0 <= i < r0 -> lq (v0 i) x = false) ->
  swp D (Z.to_nat (cGapL (b - a + 1))) R R (fun k _ v => gapPost x v0 k v)
    (lswGapHigh lt cap b r0 k0 p0) v0.
Proof.
  intros Hk0 Hkr Hr0 Hp0 Hx HL0 HH0. unfold lswGapHigh.
  apply (swp_loop_var body D 6 R R
    (fun '(r, k, p) v => permR a (b + 1) v0 v /\ a <= p <= b /\ v p = x /\
       r0 <= r <= b + 1 /\ k0 <= k <= r /\
       (forall i, a <= i < k -> lq x (v i) = false) /\
       (forall i, k <= i < r -> lq (v i) x = false))
    (fun '(r, k, p) => b + 1 - r) (gapPost x v0)).
  2:{ split; [apply permR_refl|]. repeat split; auto; lia. }
  2:{ lia. }
  2:{ unfold cGapL. lia. }
  intros [[r k] p] v (Hpm & Hp & Hvp & Hr & Hk & HL & HH).
  destruct (Z.leb_spec r b) as [C|C].
  2:{ apply swp_ret. split; [lia|]. split; [exact Hpm|]. split; [exact HL|intros; apply HH; lia]. }
  destruct (Z.eq_dec r k) as [Ek|Ek].
  - rewrite Ek. apply swp_bind, swp_test; [lia|lia|lia|lia|unfold R; lia|unfold R; lia|]. rewrite Hvp.
    intros [|] E; cbv zeta.
    + apply swp_ret.
      assert (Hrp : k <> p). { intros ->. rewrite Hvp, (lt_irr lt lq Hlt) in E. discriminate. }
      destruct (Z.eqb_spec k p); [contradiction|]. split; [|lia].
      split; [exact Hpm|]. split; [lia|]. split; [exact Hvp|]. split; [lia|]. split; [lia|].
      split; [|intros; lia]. intros i Hi.
      destruct (Z.eq_dec i k) as [->|]; [apply (lt_asym lt lq Hlt); exact E|apply HL; lia].
    + apply swp_ret. split; [|lia]. split; [exact Hpm|]. split; [lia|]. split; [exact Hvp|].
      split; [lia|]. split; [lia|]. split; [exact HL|]. intros i Hi.
      destruct (Z.eq_dec i k) as [->|]; [apply (lt_weak lt lq Hlt); exact E|apply HH; lia].
  - apply swp_bind, swp_lsw; [lia|lia|lia|lia|lia|unfold R; lia|unfold R; lia|exact Ek| | |]; rewrite Hvp.
    + intros _. unfold R. lia.
    + intro E. cbv zeta. apply swp_ret.
      assert (Hrp : r <> p). { intros ->. rewrite Hvp, (lt_irr lt lq Hlt) in E. discriminate. }
      split; [|lia].
      split; [eapply permR_trans; [exact Hpm|apply permR_swap; lia]|].
      split; [destruct (Z.eqb_spec k p); lia|]. split.
      { destruct (Z.eqb_spec k p) as [Ep|Ep].
        - rewrite swapv_l, Ep. exact Hvp.
        - rewrite swapv_o by lia. exact Hvp. }
      split; [lia|]. split; [lia|]. split.
      * intros i Hi. destruct (Z.eq_dec i k) as [->|].
        { rewrite swapv_r. apply (lt_asym lt lq Hlt). exact E. }
        rewrite swapv_o by lia. apply HL; lia.
      * intros i Hi. destruct (Z.eq_dec i r) as [->|].
        { rewrite swapv_l. apply HH; lia. }
        rewrite swapv_o by lia. apply HH; lia.
    + intro E. apply swp_ret. split; [|lia]. split; [exact Hpm|]. split; [lia|]. split; [exact Hvp|].
      split; [lia|]. split; [lia|]. split; [exact HL|]. intros i Hi.
      destruct (Z.eq_dec i r) as [->|]; [apply (lt_weak lt lq Hlt); exact E|apply HH; lia].
Qed.

End Gap.

(** ** partOne between the ends, after pivot selection *)

Notation parted := (parted (lkind lq) okAll).

Lemma parted_lsw lo hi c v0 pv v1 l v2 :
  1 <= c -> pivoted lq lo hi c v0 pv v1 ->
  onePost2 (lo + 1) (hi - 1) pv v1 l v2 ->
  (forall i, ~ wrOne (lo + 1) (hi - 1) pv i -> v2 i = v1 i) ->
  parted (rng lo hi) (l - lo) v0 v2.
Proof.
  intros Hc (Hp & Hpv & EL & EH) (Hk & Hp2 & Hvp & HL & HH) Hf.
  assert (Elo : v2 lo = v1 lo) by (apply Hf; unfold wrOne; lia).
  assert (Ehi : v2 hi = v1 hi) by (apply Hf; unfold wrOne; lia).
  split; [simpl; lia|]. simpl. replace (lo + (hi - lo + 1)) with (hi + 1) by lia. split.
  - eapply permR_trans; [exact Hp|].
    apply (permR_widen (lo + 1) (hi - 1 + 1)); [lia|lia|lia|exact Hp2|].
    intros i Hi. symmetry. apply Hf. unfold wrOne. lia.
  - exists (v1 pv). split; [exact I|]. unfold Lo, Hi; simpl. split; intros i Hi; apply negb_true_iff.
    + destruct (Z.eq_dec (lo + i) lo) as [E|E].
      * rewrite E, Elo. exact EL.
      * apply HL. lia.
    + destruct (Z.eq_dec (lo + i) hi) as [E|E].
      * rewrite E, Ehi. exact EH.
      * apply HH. lia.
Qed.

End Part.
