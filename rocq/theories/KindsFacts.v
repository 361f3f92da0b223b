(** * Facts about the ten element types *)

From Coq Require Import List ZArith Lia Bool Permutation Sorted.
From Coq Require Import Floats.SpecFloat.
From Verif Require Import Lang Base Scalar Typed SeqOps ScalarFacts TypedPart TypedShort TypedSort Kinds Spec.
Import ListNotations.
Open Scope Z_scope.
Local Arguments Z.mul : simpl never.
Local Arguments Z.add : simpl never.
Local Arguments Z.sub : simpl never.
Local Arguments Z.pow : simpl never.

(** ** IEEE comparison is a total preorder without NaN *)

Definition rank (f : spec_float) : Z * Z * Z :=
  match f with
  | S754_infinity true => (-2, 0, 0)
  | S754_finite true m e => (-1, -e, - Zpos m)
  | S754_zero _ => (0, 0, 0)
  | S754_finite false m e => (1, e, Zpos m)
  | S754_infinity false => (2, 0, 0)
  | S754_nan => (3, 0, 0)
  end.

Definition lexlt (a b : Z * Z * Z) : Prop :=
  let '(x, y, z) := a in let '(x', y', z') := b in
  x < x' \/ (x = x' /\ (y < y' \/ (y = y' /\ z < z'))).

Lemma SFltb_rank f g : f <> S754_nan -> g <> S754_nan -> (SFltb f g = true <-> lexlt (rank f) (rank g)).
Proof.
  intros Hf Hg. unfold SFltb, lexlt.
  destruct f as [[]|[]| |[] m e]; destruct g as [[]|[]| |[] m' e']; try congruence;
    cbn [SFcompare rank]; try (split; [discriminate|lia]); try (split; [lia|reflexivity]);
    destruct (Z.compare_spec e e'); try (change (Pos.compare_cont Eq m m') with (Pos.compare m m');
    destruct (Pos.compare_spec m m'); simpl); split; try discriminate; try reflexivity; try lia.
Qed.

Lemma SFleb_ltb f g : f <> S754_nan -> g <> S754_nan -> SFleb f g = negb (SFltb g f).
Proof.
  intros Hf Hg. unfold SFleb, SFltb.
  destruct f as [[]|[]| |[] m e]; destruct g as [[]|[]| |[] m' e']; try congruence; cbn [SFcompare]; try reflexivity;
    rewrite (Z.compare_antisym e e'); destruct (Z.compare e e'); simpl; try reflexivity;
    change (Pos.compare_cont Eq m m') with (Pos.compare m m'); change (Pos.compare_cont Eq m' m) with (Pos.compare m' m);
    rewrite (Pos.compare_antisym m m'); destruct (Pos.compare m m'); reflexivity.
Qed.

Lemma SFltb_false f g : f <> S754_nan -> g <> S754_nan -> (SFltb f g = false <-> ~ lexlt (rank f) (rank g)).
Proof.
  intros Hf Hg. rewrite <- SFltb_rank by assumption. destruct (SFltb f g); split; congruence.
Qed.

Lemma lexlt_asym a b : lexlt a b -> ~ lexlt b a.
Proof. destruct a as [[x y] z], b as [[x' y'] z']. unfold lexlt. lia. Qed.

Lemma lexle_trans a b c : ~ lexlt b a -> ~ lexlt c b -> ~ lexlt c a.
Proof. destruct a as [[x y] z], b as [[x' y'] z'], c as [[x'' y''] z'']. unfold lexlt. lia. Qed.

Lemma SFeqb_self f : SFeqb f f = true <-> f <> S754_nan.
Proof.
  unfold SFeqb. destruct f as [[]|[]| |[] m e]; simpl; try (split; congruence);
    rewrite Z.compare_refl; change (Pos.compare_cont Eq m m) with (Pos.compare m m); rewrite Pos.compare_refl; simpl; split; congruence.
Qed.

(** ** Decoding agrees with the numeric value *)

Section Decode.
Variables mw ew : Z.
Hypothesis Hmw : 1 <= mw.
Hypothesis Hew : 2 <= ew.
Let emin := 2 - 2 ^ (ew - 1) - mw.

(** [f] is the canonical IEEE number of magnitude order [z]. *)
Definition rep (f : spec_float) (z : Z) : Prop :=
  match f with
  | S754_zero _ => z = 0
  | S754_infinity s => z = (if s then -1 else 1) * 2 ^ (mw + (2 ^ ew - 2))
  | S754_finite s p e =>
      z = (if s then -1 else 1) * (Zpos p * 2 ^ (e - emin)) /\
      0 <= e - emin /\ mw + 1 + (e - emin) <= mw + (2 ^ ew - 2) /\
      Zpos p < 2 ^ (mw + 1) /\ (e = emin \/ 2 ^ mw <= Zpos p)
  | S754_nan => False
  end.

Lemma pow_pos x : 0 <= x -> 0 < 2 ^ x.
Proof. intro H. apply Z.pow_pos_nonneg; lia. Qed.

Lemma fin_lt_inf p e : 0 <= e -> mw + 1 + e <= mw + (2 ^ ew - 2) -> Zpos p < 2 ^ (mw + 1) ->
  0 < Zpos p * 2 ^ e < 2 ^ (mw + (2 ^ ew - 2)).
Proof.
  intros H0 H1 H2. assert (P1 := pow_pos e H0). split; [nia|].
  apply Z.lt_le_trans with (2 ^ (mw + 1) * 2 ^ e); [nia|].
  rewrite <- Z.pow_add_r by lia. apply Z.pow_le_mono_r; lia.
Qed.

Lemma fin_exp_lt p e p' e' : 0 <= e -> e < e' -> Zpos p < 2 ^ (mw + 1) -> 2 ^ mw <= Zpos p' ->
  Zpos p * 2 ^ e < Zpos p' * 2 ^ e'.
Proof.
  intros H0 H1 H2 H3. assert (P1 := pow_pos e H0). assert (P2 := pow_pos e' ltac:(lia)).
  apply Z.lt_le_trans with (2 ^ (mw + 1) * 2 ^ e); [nia|].
  apply Z.le_trans with (2 ^ mw * 2 ^ e'); [|nia].
  rewrite <- !Z.pow_add_r by lia. apply Z.pow_le_mono_r; lia.
Qed.

Lemma rep_compare f g x y : rep f x -> rep g y -> SFcompare f g = Some (x ?= y).
Proof.
  assert (PI := pow_pos (mw + (2 ^ ew - 2))).
  assert (Hinf : 0 < 2 ^ (mw + (2 ^ ew - 2))).
  { apply PI. assert (2 ^ 2 <= 2 ^ ew) by (apply Z.pow_le_mono_r; lia). change (2 ^ 2) with 4 in H. lia. }
  clear PI. set (I := 2 ^ (mw + (2 ^ ew - 2))) in *.
  assert (LT : forall a b, a < b -> Some Lt = Some (a ?= b)) by (intros a b H; f_equal; symmetry; apply Z.compare_lt_iff; exact H).
  assert (GT : forall a b, b < a -> Some Gt = Some (a ?= b)) by (intros a b H; f_equal; symmetry; apply Z.compare_gt_iff; exact H).
  assert (EQ : forall a b, a = b -> Some Eq = Some (a ?= b)) by (intros a b H; f_equal; symmetry; apply Z.compare_eq_iff; exact H).
  assert (FI : forall s p e z, rep (S754_finite s p e) z ->
            if s then - I < z < 0 else 0 < z < I).
  { intros s p e z (Hz & H1 & H2 & H3 & _). destruct (fin_lt_inf p (e - emin) H1 H2 H3). fold I in H0.
    destruct s; lia. }
  destruct f as [sf|sf| |sf m e]; intro Hf; try contradiction;
    destruct g as [sg|sg| |sg m' e']; intro Hg; try contradiction;
    try (assert (Ff := FI _ _ _ _ Hf)); try (assert (Fg := FI _ _ _ _ Hg)); clear FI;
    simpl in Hf, Hg; fold I in Hf, Hg; cbn [SFcompare];
    try destruct sf; try destruct sg; try (apply LT; lia); try (apply GT; lia); try (apply EQ; lia).
  - (* both negative *)
    destruct Hf as (Hx & A1 & A2 & A3 & A4). destruct Hg as (Hy & B1 & B2 & B3 & B4).
    destruct (Z.compare_spec e e') as [E|E|E].
    + subst e'. change (Pos.compare_cont Eq m m') with (Pos.compare m m').
      assert (P1 := pow_pos (e - emin) A1).
      destruct (Pos.compare_spec m m'); simpl; [apply EQ; subst; lia|apply GT; nia|apply LT; nia].
    + apply GT. assert (fin := fin_exp_lt m (e - emin) m' (e' - emin) A1 ltac:(lia) A3). lia.
    + apply LT. assert (fin := fin_exp_lt m' (e' - emin) m (e - emin) B1 ltac:(lia) B3). lia.
  - destruct Hf as (Hx & A1 & A2 & A3 & A4). destruct Hg as (Hy & B1 & B2 & B3 & B4).
    destruct (Z.compare_spec e e') as [E|E|E].
    + subst e'. change (Pos.compare_cont Eq m m') with (Pos.compare m m').
      assert (P1 := pow_pos (e - emin) A1).
      destruct (Pos.compare_spec m m'); simpl; [apply EQ; subst; lia|apply LT; nia|apply GT; nia].
    + apply LT. assert (fin := fin_exp_lt m (e - emin) m' (e' - emin) A1 ltac:(lia) A3). lia.
    + apply GT. assert (fin := fin_exp_lt m' (e' - emin) m (e - emin) B1 ltac:(lia) B3). lia.
Qed.

Lemma decode_nan b : decode mw ew b = S754_nan <-> fNaN mw ew b.
Proof.
  unfold decode, fNaN, fExp, fMan.
  assert (Pm := pow_pos mw ltac:(lia)).
  assert (Bm := Z.mod_pos_bound b (2 ^ mw) Pm).
  destruct (Z.eqb_spec ((b / 2 ^ mw) mod 2 ^ ew) (2 ^ ew - 1)) as [E|E].
  - destruct (b mod 2 ^ mw) eqn:Em; split; try discriminate; try tauto; intros _; split; auto; discriminate.
  - destruct (Z.eqb_spec ((b / 2 ^ mw) mod 2 ^ ew) 0) as [E0|E0].
    + destruct (b mod 2 ^ mw) eqn:Em; split; try discriminate; try tauto.
    + destruct (b mod 2 ^ mw + 2 ^ mw) eqn:Em; split; try discriminate; try tauto; lia.
Qed.

Lemma decode_rep b : 0 <= b < 2 ^ (mw + ew + 1) -> ~ fNaN mw ew b ->
  rep (decode mw ew b) (fVal mw ew b).
Proof.
  intros Hb Hn. unfold decode, fVal, fExp, fMan, fNeg.
  assert (Pm := pow_pos mw ltac:(lia)). assert (Pe := pow_pos ew ltac:(lia)).
  assert (Bm := Z.mod_pos_bound b (2 ^ mw) Pm).
  assert (Be := Z.mod_pos_bound (b / 2 ^ mw) (2 ^ ew) Pe).
  assert (Es : (0 <? b / 2 ^ (mw + ew)) = (2 ^ (mw + ew) <=? b)).
  { assert (Pme := pow_pos (mw + ew) ltac:(lia)).
    destruct (Z.leb_spec (2 ^ (mw + ew)) b).
    - apply Z.ltb_lt. apply Z.div_str_pos. lia.
    - apply Z.ltb_ge. rewrite Z.div_small by lia. lia. }
  rewrite Es. set (sg := 2 ^ (mw + ew) <=? b) in *. clearbody sg. clear Es.
  unfold fNaN, fExp, fMan in Hn.
  set (m := b mod 2 ^ mw) in *. set (e := (b / 2 ^ mw) mod 2 ^ ew) in *. clearbody m e.
  assert (E4 : 4 <= 2 ^ ew).
  { assert (2 ^ 2 <= 2 ^ ew) by (apply Z.pow_le_mono_r; lia). change (2 ^ 2) with 4 in H. lia. }
  destruct (Z.eqb_spec e (2 ^ ew - 1)) as [E|E].
  - assert (m = 0) by (destruct (Z.eq_dec m 0); [assumption|exfalso; apply Hn; auto]).
    subst m e. destruct (Z.eqb_spec (2 ^ ew - 1) 0); [lia|]. subst. cbn [rep].
    rewrite Z.add_0_l, <- Z.pow_add_r by lia. f_equal. f_equal. lia.
  - destruct (Z.eqb_spec e 0) as [E0|E0].
    + destruct m as [|p|p] eqn:Em; [cbn [rep]; lia| |lia]. cbn [rep].
      fold emin. replace (emin - emin) with 0 by lia. change (2 ^ 0) with 1.
      split; [lia|]. split; [lia|]. split; [lia|].
      rewrite Z.pow_add_r by lia. change (2 ^ 1) with 2. lia.
    + destruct (m + 2 ^ mw) as [|p|p] eqn:Em; [lia| |lia]. cbn [rep]. fold emin.
      replace (e - 1 + emin - emin) with (e - 1) by lia.
      split; [lia|]. split; [lia|]. split; [lia|].
      rewrite Z.pow_add_r by lia. change (2 ^ 1) with 2. lia.
Qed.

End Decode.

(** ** Strings *)

Lemma bytes_le_lexle a : forall b, bytes_le a b = true <-> lexle a b.
Proof.
  induction a as [|x a IH]; intros [|y b]; simpl.
  - split; auto. intros _. constructor.
  - split; auto. intros _. constructor.
  - split; [discriminate|]. intro H. inversion H.
  - destruct (Z.ltb_spec x y).
    + split; auto. intros _. constructor; assumption.
    + destruct (Z.ltb_spec y x).
      * split; [discriminate|]. intro H1. inversion H1; subst; lia.
      * assert (x = y) by lia. subst. rewrite IH. split; intro H1; [apply lex_eq; assumption|].
        inversion H1; subst; [lia|assumption].
Qed.

Lemma bytes_le_lt a : forall b, bytes_le a b = negb (bytes_lt b a).
Proof.
  induction a as [|x a IH]; intros [|y b]; simpl; auto.
  destruct (Z.ltb_spec x y), (Z.ltb_spec y x); auto; try lia.
Qed.

Lemma bytes_lt_asym a : forall b, bytes_lt a b = true -> bytes_lt b a = false.
Proof.
  induction a as [|x a IH]; intros [|y b]; simpl; auto; try discriminate.
  destruct (Z.ltb_spec x y), (Z.ltb_spec y x); auto; try lia; discriminate.
Qed.

Lemma bytes_le_trans a : forall b c, bytes_le a b = true -> bytes_le b c = true -> bytes_le a c = true.
Proof.
  induction a as [|x a IH]; intros [|y b] [|z c]; simpl; auto; try discriminate.
  destruct (Z.ltb_spec x y), (Z.ltb_spec y x), (Z.ltb_spec y z), (Z.ltb_spec z y),
    (Z.ltb_spec x z), (Z.ltb_spec z x); auto; try lia; try discriminate. apply IH.
Qed.

(** ** The ten kinds satisfy the laws *)

Definition okKey (pl : plat) (e : ety) : keyT e -> Prop :=
  match e as e return keyT e -> Prop with
  | TI4 => fun k : Z => - 2 ^ 31 <= k < 2 ^ 31
  | TI8 => fun k : Z => - 2 ^ 63 <= k < 2 ^ 63
  | TU4 => fun k : Z => 0 <= k < 2 ^ 32
  | TU8 => fun k : Z => 0 <= k < 2 ^ 64
  | TF4 | TF8 => fun k => k <> S754_nan
  | TS | TB => fun _ => True
  | TLenS | TLenB => fun k : Z => 0 <= k < intSize pl
  end.

Lemma laws_Z {T} (ky : T -> Z) f (ev : bool) fcv lo hi lo' hi' :
  between lo hi f -> lo <= lo' -> hi' <= hi ->
  laws (Kind ky Z.ltb Z.leb f ev fcv) (fun k => lo' <= k < hi').
Proof.
  intros Hf H1 H2. constructor; cbn [Typed.ltb Typed.leb Typed.mean].
  - intros x y _ _. destruct (Z.leb_spec x y), (Z.ltb_spec y x); auto; lia.
  - intros x y _ _. destruct (Z.ltb_spec x y), (Z.ltb_spec y x); auto; lia.
  - intros x y z _ _ _. destruct (Z.leb_spec x y), (Z.leb_spec y z), (Z.leb_spec x z); auto; lia.
  - intros _ x y Hx Hy. specialize (Hf x y ltac:(lia) ltac:(lia)). split; [lia|].
    destruct (Z.le_ge_cases x y); [left|right]; split; apply Z.leb_le; lia.
Qed.

Lemma laws_F (ky : Z -> spec_float) f fcv :
  laws (Kind ky SFltb SFleb f false fcv) (fun k => k <> S754_nan).
Proof.
  constructor; cbn [Typed.ltb Typed.leb Typed.mean Typed.even].
  - intros x y Hx Hy. apply SFleb_ltb; assumption.
  - intros x y Hx Hy H. apply SFltb_false; auto. apply SFltb_rank in H; auto. apply lexlt_asym; assumption.
  - intros x y z Hx Hy Hz. rewrite !SFleb_ltb by assumption. rewrite !negb_true_iff, !SFltb_false by assumption.
    apply lexle_trans.
  - discriminate.
Qed.

Lemma laws_B {T} (ky : T -> list Z) f fcv :
  laws (Kind ky bytes_lt bytes_le f false fcv) (fun _ => True).
Proof.
  constructor; cbn [Typed.ltb Typed.leb Typed.mean Typed.even].
  - intros x y _ _. apply bytes_le_lt.
  - intros x y _ _. apply bytes_lt_asym.
  - intros x y z _ _ _. apply bytes_le_trans.
  - discriminate.
Qed.

(** The word of the platform in the context. *)
#[export] Hint Extern 0 word => match goal with p : plat |- _ => exact (pword p) end : typeclass_instances.

Lemma intSize_wq pl : wb pl = 4 \/ wb pl = 8 -> intSize pl = 2 * @wq (pword pl) /\ 2 ^ 30 <= @wq (pword pl).
Proof. unfold intSize, pword, wq. intros [-> | ->]; lia. Qed.

Lemma intSize_eq pl : intSize pl = 2 * @wq (pword pl).
Proof.
  unfold intSize, pword, wq. destruct (Z.le_gt_cases (wb pl) 0) as [C|C].
  - rewrite !Z.pow_neg_r by lia. reflexivity.
  - replace (8 * wb pl - 1) with (Z.succ (8 * wb pl - 2)) by lia. apply Z.pow_succ_r. lia.
Qed.

Lemma intSize_max pl : platOk pl -> 0 < intSize pl <= 2 ^ 63.
Proof. intros (H & _). unfold intSize. destruct H as [-> | ->]; lia. Qed.

Lemma laws_all pl e : platOk pl -> laws (kindOf pl e) (okKey pl e).
Proof.
  intros (H0 & H1 & H2 & H3 & H4 & H5 & _). assert (HI := intSize_wq pl H0). destruct e; cbn [kindOf okKey].
  - eapply laws_Z; [exact H1|lia|lia].
  - eapply laws_Z; [exact H2|lia|lia].
  - eapply laws_Z; [exact H3|lia|lia].
  - eapply laws_Z; [exact H4|lia|lia].
  - apply laws_F.
  - apply laws_F.
  - apply laws_B.
  - apply laws_B.
  - eapply laws_Z; [exact H5|lia|lia].
  - eapply laws_Z; [exact H5|lia|lia].
Qed.

Lemma meanOk_of pl : platOk pl -> meanOk (Wd := pword pl) (mI pl).
Proof.
  intros (H0 & _ & _ & _ & _ & H5 & H6 & _) x y Hx Hxy Hy. assert (HI := intSize_wq pl H0). specialize (H5 x y ltac:(lia) ltac:(lia)).
  specialize (H6 x y Hx Hxy ltac:(lia)). lia.
Qed.

Lemma signed_intVal w b : 1 <= w -> 0 <= b < 2 ^ w -> signed w b = intVal w b.
Proof.
  intros Hw Hb. unfold signed, intVal.
  assert (E : 2 ^ w = 2 * 2 ^ (w - 1)).
  { replace w with (1 + (w - 1)) at 1 by lia. rewrite Z.pow_add_r by lia. reflexivity. }
  destruct (Z.ltb_spec b (2 ^ (w - 1))).
  - rewrite Z.mod_small by lia. lia.
  - replace (b + 2 ^ (w - 1)) with (b - 2 ^ (w - 1) + 1 * 2 ^ w) by lia.
    rewrite Z.mod_add by lia. rewrite Z.mod_small by lia. lia.
Qed.

Lemma intVal_range w b : 1 <= w -> - 2 ^ (w - 1) <= intVal w b < 2 ^ (w - 1).
Proof.
  intros Hw. unfold intVal.
  assert (E : 2 ^ w = 2 * 2 ^ (w - 1)).
  { replace w with (1 + (w - 1)) at 1 by lia. rewrite Z.pow_add_r by lia. reflexivity. }
  assert (0 < 2 ^ w) by (apply Z.pow_pos_nonneg; lia).
  assert (B := Z.mod_pos_bound (b + 2 ^ (w - 1)) (2 ^ w) ltac:(lia)). lia.
Qed.

Lemma okKey_of pl e x : wellTyped pl e x -> ~ nan e x -> okKey pl e (key (kindOf pl e) x).
Proof.
  destruct e; cbn [wellTyped nan kindOf Typed.key okKey]; intros Hx Hn; auto.
  - rewrite signed_intVal by lia. apply (intVal_range 32). lia.
  - rewrite signed_intVal by lia. apply (intVal_range 64). lia.
  - rewrite decode_nan by lia. exact Hn.
  - rewrite decode_nan by lia. exact Hn.
  - unfold blen. lia.
Qed.

Lemma SFleb_fVal mw ew x y : 1 <= mw -> 2 <= ew ->
  0 <= x < 2 ^ (mw + ew + 1) -> 0 <= y < 2 ^ (mw + ew + 1) -> ~ fNaN mw ew x -> ~ fNaN mw ew y ->
  SFleb (decode mw ew x) (decode mw ew y) = true <-> fVal mw ew x <= fVal mw ew y.
Proof.
  intros Hm He Hx Hy Nx Ny. unfold SFleb.
  rewrite (rep_compare mw ew Hm He _ _ _ _ (decode_rep mw ew Hm He x Hx Nx) (decode_rep mw ew Hm He y Hy Ny)).
  destruct (Z.compare_spec (fVal mw ew x) (fVal mw ew y)); split; try discriminate; try reflexivity; lia.
Qed.

(** The model's comparison is the order of the Go type. *)
Lemma le_leb pl e x y : wellTyped pl e x -> wellTyped pl e y -> ~ nan e x -> ~ nan e y ->
  leb (kindOf pl e) (key (kindOf pl e) x) (key (kindOf pl e) y) = true <-> le e x y.
Proof.
  destruct e; cbn [wellTyped nan kindOf Typed.key Typed.leb le]; intros Hx Hy Nx Ny.
  - rewrite !signed_intVal by lia. apply Z.leb_le.
  - rewrite !signed_intVal by lia. apply Z.leb_le.
  - apply Z.leb_le.
  - apply Z.leb_le.
  - apply SFleb_fVal; auto; lia.
  - apply SFleb_fVal; auto; lia.
  - apply bytes_le_lexle.
  - apply bytes_le_lexle.
  - rewrite Z.leb_le. unfold blen. lia.
  - apply Z.leb_le.
Qed.

Lemma selfNe_nan e x : selfNe e x = true <-> nan e x.
Proof.
  destruct e; cbn [selfNe nan]; try (split; [discriminate|tauto]);
    rewrite negb_true_iff, <- not_true_iff_false, SFeqb_self, decode_nan by lia; 
    (match goal with |- context [fNaN ?a ?b x] => destruct (Z.eq_dec (fExp a b x) (2 ^ b - 1)), (Z.eq_dec (fMan a x) 0); unfold fNaN; tauto end).
Qed.
