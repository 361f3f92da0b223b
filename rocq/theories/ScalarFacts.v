(** * Facts about the scalar functions: sampling stays in range and is optimal *)

From Coq Require Import List ZArith Lia Bool.
From Verif Require Import Lang SeqLogic Scalar Spec.
Import ListNotations.
Open Scope Z_scope.

Local Arguments Z.mul : simpl never.
Local Arguments Z.add : simpl never.
Local Arguments Z.sub : simpl never.
Local Arguments Z.pow : simpl never.

Lemma uw_small {Wd : word} x : 0 <= x < 4 * wq -> uw x = x.
Proof. intro H. unfold uw. apply Z.mod_small; exact H. Qed.
Lemma u32_small x : 0 <= x < 2 ^ 32 -> u32 x = x.
Proof. intro H. unfold u32. apply Z.mod_small; exact H. Qed.
Lemma iw_small {Wd : word} x : - (2 * wq) <= x < 2 * wq -> iw x = x.
Proof.
  intro H. unfold iw. rewrite Z.mod_small; [lia|].
  lia.
Qed.
Lemma u32_range x : 0 <= u32 x < 2 ^ 32.
Proof. apply Z.mod_pos_bound. lia. Qed.
Lemma shiftr1 x : Z.shiftr x 1 = x / 2.
Proof. rewrite Z.shiftr_div_pow2 by lia. reflexivity. Qed.

(** The same computation without wrap-around. *)
Definition mmsPlain (slen n : Z) : Z * Z * Z :=
  let step := slen / n in
  let n := n - 1 in
  let span := n * step in
  let tail := slen - span in
  if (n <? tail) && ((step + 1) / 2 <? tail / 2)
  then ((tail - n) / 2, step + 1, (tail - n) / 2 + (span + n))
  else (tail / 2, step, tail / 2 + span).

Lemma minMaxSample_plain {Wd : word} slen n :
  2 <= n -> 2 * n <= slen -> slen < 4 * wq -> minMaxSample slen n = mmsPlain slen n.
Proof.
  intros Hn Hs Hb. unfold minMaxSample, mmsPlain. rewrite !shiftr1.
  assert (Hd : n * (slen / n) <= slen) by (apply Z.mul_div_le; lia).
  assert (Hq : 2 <= slen / n) by (apply Z.div_le_lower_bound; lia).
  rewrite (uw_small (n - 1)) by lia.
  assert (E1 : 0 <= (n - 1) * (slen / n) <= slen - slen / n) by nia.
  rewrite (uw_small ((n - 1) * (slen / n))) by lia.
  rewrite (uw_small (slen - (n - 1) * (slen / n))) by lia.
  rewrite (uw_small (slen / n + 1)) by nia.
  set (q := slen / n) in *. set (sp := (n - 1) * q) in *.
  destruct (Z.ltb_spec (n - 1) (slen - sp)); destruct (Z.ltb_spec ((q + 1) / 2) ((slen - sp) / 2)); cbn [andb].
  - rewrite !shiftr1. rewrite (uw_small (sp + (n - 1))), (uw_small (slen - sp - (n - 1))) by lia.
    assert ((slen - sp - (n - 1)) / 2 <= slen - sp - (n - 1)) by (apply Z.div_le_upper_bound; lia).
    assert (0 <= (slen - sp - (n - 1)) / 2) by (apply Z.div_pos; lia).
    rewrite (uw_small ((slen - sp - (n - 1)) / 2 + (sp + (n - 1)))) by lia. reflexivity.
  - rewrite !shiftr1. assert ((slen - sp) / 2 <= slen - sp) by (apply Z.div_le_upper_bound; lia).
    assert (0 <= (slen - sp) / 2) by (apply Z.div_pos; lia).
    rewrite (uw_small ((slen - sp) / 2 + sp)) by lia. reflexivity.
  - rewrite !shiftr1. assert ((slen - sp) / 2 <= slen - sp) by (apply Z.div_le_upper_bound; lia).
    assert (0 <= (slen - sp) / 2) by (apply Z.div_pos; lia).
    rewrite (uw_small ((slen - sp) / 2 + sp)) by lia. reflexivity.
  - rewrite !shiftr1. assert ((slen - sp) / 2 <= slen - sp) by (apply Z.div_le_upper_bound; lia).
    assert (0 <= (slen - sp) / 2) by (apply Z.div_pos; lia).
    rewrite (uw_small ((slen - sp) / 2 + sp)) by lia. reflexivity.
Qed.

(** Division by 2 in a form [lia] can use. *)
Lemma half x : exists y, x / 2 = y /\ 2 * y <= x <= 2 * y + 1.
Proof. exists (x / 2). split; [reflexivity|]. assert (H := Z.div_mod x 2 ltac:(lia)).
  assert (0 <= x mod 2 < 2) by (apply Z.mod_pos_bound; lia). lia. Qed.

(** All that is needed later: the samples lie in the slice. *)
Lemma minMaxSample_ok {Wd : word} slen n :
  2 <= n -> 2 * n <= slen -> slen < 4 * wq ->
  exists first step, minMaxSample slen n = (first, step, first + (n - 1) * step) /\
    0 <= first /\ 1 <= step /\ first + (n - 1) * step <= slen - 1.
Proof.
  intros Hn Hs Hb. rewrite minMaxSample_plain by assumption. unfold mmsPlain.
  assert (Hd : n * (slen / n) <= slen) by (apply Z.mul_div_le; lia).
  assert (Hq : 2 <= slen / n) by (apply Z.div_le_lower_bound; lia).
  set (q := slen / n) in *. set (sp := (n - 1) * q).
  assert (E1 : 0 <= sp <= slen - q) by (unfold sp; nia).
  destruct (half (slen - sp)) as (t & Et & Ht). rewrite Et.
  destruct (half (slen - sp - (n - 1))) as (t' & Et' & Ht'). rewrite Et'.
  destruct (Z.ltb_spec (n - 1) (slen - sp)); destruct (Z.ltb_spec ((q + 1) / 2) t); cbn [andb].
  - exists t', (q + 1). split; [f_equal; unfold sp; lia|]. unfold sp in *. nia.
  - exists t, q. split; [f_equal; unfold sp; lia|]. unfold sp in *. nia.
  - exists t, q. split; [f_equal; unfold sp; lia|]. unfold sp in *. nia.
  - exists t, q. split; [f_equal; unfold sp; lia|]. unfold sp in *. nia.
Qed.

(** How far one step beyond the last sample is. *)
Lemma minMaxSample_past {Wd : word} slen n f st l : n = 5 \/ n = 7 -> 2 * n <= slen -> slen < 4 * wq ->
  minMaxSample slen n = (f, st, l) ->
  (n = 5 -> 11 * slen - 17 <= 10 * (f + 5 * st) <= 11 * slen + 18) /\
  (n = 7 -> 14 * (f + 7 * st) <= 15 * slen + 40).
Proof.
  intros Hn Hs Hb. rewrite minMaxSample_plain by lia. unfold mmsPlain.
  destruct (half (slen / n + 1)) as (u & Eu & Hu). rewrite Eu.
  destruct (half (slen - (n - 1) * (slen / n))) as (t & Et & Ht). rewrite Et.
  destruct (half (slen - (n - 1) * (slen / n) - (n - 1))) as (t' & Et' & Ht'). rewrite Et'.
  assert (Hd := Z.div_mod slen n ltac:(lia)). assert (Hm := Z.mod_pos_bound slen n ltac:(lia)).
  set (q := slen / n) in *. set (r := slen mod n) in *. clearbody q r.
  destruct (Z.ltb_spec (n - 1) (slen - (n - 1) * q)); destruct (Z.ltb_spec u t); cbn [andb];
    intro E; injection E as <- <- <-; destruct Hn; subst n; split; intro; lia.
Qed.

(** ** minMaxFour *)

Lemma minMaxFour_eq slen :
  0 <= slen < 2 ^ 32 ->
  minMaxFour slen = (u32 (slen / 8 + nth (Z.to_nat (slen mod 8)) firstFour 0),
                     u32 (slen / 4 + nth (Z.to_nat (slen mod 8)) stepFour 0)).
Proof.
  intro H. unfold minMaxFour. rewrite !Z.shiftr_div_pow2 by lia.
  change 7 with (Z.ones 3). rewrite Z.land_ones by lia. reflexivity.
Qed.

(** slen = 8q + r *)
Lemma minMaxFour_cases slen :
  8 <= slen < 2 ^ 32 ->
  exists q r, slen = 8 * q + r /\ 1 <= q /\
  (  r = 0 /\ minMaxFour slen = (q, 2 * q)
  \/ r = 1 /\ minMaxFour slen = (q, 2 * q)
  \/ r = 2 /\ minMaxFour slen = (q - 1, 2 * q + 1)
  \/ r = 3 /\ minMaxFour slen = (q, 2 * q + 1)
  \/ r = 4 /\ minMaxFour slen = (q, 2 * q + 1)
  \/ r = 5 /\ minMaxFour slen = (q + 1, 2 * q + 1)
  \/ r = 6 /\ minMaxFour slen = (q + 1, 2 * q + 1)
  \/ r = 7 /\ minMaxFour slen = (q, 2 * q + 2)).
Proof.
  intro H. exists (slen / 8), (slen mod 8).
  assert (E := Z.div_mod slen 8 ltac:(lia)). assert (R := Z.mod_pos_bound slen 8 ltac:(lia)).
  rewrite minMaxFour_eq by lia. set (q := slen / 8) in *. set (r := slen mod 8) in *.
  split; [exact E|]. split; [lia|].
  assert (F : slen / 4 = 2 * q + r / 4).
  { rewrite E at 1. replace (8 * q + r) with (r + (2 * q) * 4) by lia. rewrite Z.div_add by lia. lia. }
  rewrite F.
  assert (Hr : r = 0 \/ r = 1 \/ r = 2 \/ r = 3 \/ r = 4 \/ r = 5 \/ r = 6 \/ r = 7) by lia.
  clearbody r. clear F.
  destruct Hr as [ -> |[ -> |[ -> |[ -> |[ -> |[ -> |[ -> | -> ]]]]]]].
  1: left. 2: right; left. 3: do 2 right; left. 4: do 3 right; left. 5: do 4 right; left.
  6: do 5 right; left. 7: do 6 right; left. 8: do 7 right.
  all: split; [reflexivity|].
  all: match goal with |- context [Z.to_nat ?k] => let k' := eval compute in (Z.to_nat k) in change (Z.to_nat k) with k' end.
  all: cbn [nth firstFour stepFour].
  all: match goal with |- context [?a / 4] => let k' := eval compute in (a / 4) in change (a / 4) with k' end.
  3:{ f_equal; [|rewrite u32_small by lia; lia].
      unfold u32. replace (q + (2 ^ 32 - 1)) with (q - 1 + 1 * 2 ^ 32) by lia.
      rewrite Z_mod_plus_full. apply Z.mod_small. lia. }
  all: rewrite !u32_small by lia; f_equal; lia.
Qed.

Lemma minMaxFour_ok len first step :
  9 <= len -> minMaxFour (u32 len) = (first, step) ->
  0 <= first < len - 1 /\
  0 <= u32 (first + step) < len - 1 /\
  0 <= u32 (first + u32 (2 * step)) < len - 1 /\
  0 <= u32 (first + u32 (3 * step)) < len.
Proof.
  intros H E. destruct (Z.lt_ge_cases len (2 ^ 32)) as [Hl|Hl].
  - rewrite (u32_small len) in E by lia.
    destruct (minMaxFour_cases len ltac:(lia)) as (q & r & El & Hq & HC). rewrite E in HC.
    assert (B : 0 <= first /\ 0 <= step /\ first + 3 * step < len /\ first + 2 * step < len - 1).
    { destruct HC as [[? F]|[[? F]|[[? F]|[[? F]|[[? F]|[[? F]|[[? F]|[? F]]]]]]]];
        injection F; intros; subst; lia. }
    rewrite (u32_small (2 * step)), (u32_small (3 * step)) by lia.
    rewrite !u32_small by lia. lia.
  - assert (first = u32 first /\ step = u32 step) as [E1 E2].
    { unfold minMaxFour in E. injection E. intros <- <-.
      unfold u32. rewrite !Z.mod_mod by lia. auto. }
    assert (R1 := u32_range first). assert (R2 := u32_range (first + step)).
    assert (R3 := u32_range (first + u32 (2 * step))). assert (R4 := u32_range (first + u32 (3 * step))).
    destruct (Z.eq_dec len (2 ^ 32)) as [->|Hne]; [|lia].
    change (u32 (2 ^ 32)) with 0 in E. change (minMaxFour 0) with (0, 0) in E.
    injection E. intros <- <-. change (u32 (2 * 0)) with 0. change (u32 (0 + 0)) with 0. lia.
Qed.

(** The specialised 4-sample computation agrees with the general one. *)
Lemma minMaxFour_agrees {Wd : word} slen :
  8 <= slen < 2 ^ 32 -> slen < 4 * wq ->
  minMaxFour slen = (fst (fst (minMaxSample slen 4)), snd (fst (minMaxSample slen 4))).
Proof.
  intros H Hw. rewrite minMaxSample_plain by lia. unfold mmsPlain.
  destruct (minMaxFour_cases slen H) as (q & r & E & Hq & HC).
  assert (F : slen / 4 = 2 * q + r / 4).
  { rewrite E. replace (8 * q + r) with (r + (2 * q) * 4) by lia. rewrite Z.div_add by lia. lia. }
  change (4 - 1) with 3. rewrite F.
  assert (Hr4 : r / 4 = 0 /\ r < 4 \/ r / 4 = 1 /\ 4 <= r).
  { destruct HC as [[-> _]|[[-> _]|[[-> _]|[[-> _]|[[-> _]|[[-> _]|[[-> _]|[-> _]]]]]]]];
      first [left; split; [reflexivity|lia]|right; split; [reflexivity|lia]]. }
  set (x := r / 4) in *. clearbody x.
  remember (slen - 3 * (2 * q + x)) as tl eqn:Etl.
  destruct (half tl) as (t & Et & Ht). rewrite Et.
  destruct (half (tl - 3)) as (t' & Et' & Ht'). rewrite Et'.
  destruct (half (2 * q + x + 1)) as (u & Eu & Hu). rewrite Eu.
  destruct (Z.ltb_spec 3 tl) as [C1|C1]; destruct (Z.ltb_spec u t) as [C2|C2]; cbn [andb fst snd];
  destruct HC as [[-> F']|[[-> F']|[[-> F']|[[-> F']|[[-> F']|[[-> F']|[[-> F']|[-> F']]]]]]]];
    rewrite F'; f_equal; lia.
Qed.

(** ** Optimality *)

Lemma within_lower slen n f st D :
  2 <= n -> valid_samples slen n f st -> within slen n f st D ->
  f <= D /\ slen - 1 - (f + (n - 1) * st) <= D /\ st <= 2 * D + 1.
Proof.
  intros Hn (Hf & Hst & Hl) HD. repeat split.
  - destruct (HD 0 ltac:(nia)) as (j & Hj & Hd). nia.
  - destruct (HD (slen - 1) ltac:(nia)) as (j & Hj & Hd). nia.
  - destruct (half st) as (h & _ & Hh).
    destruct (HD (f + h) ltac:(nia)) as (j & Hj & Hd).
    destruct (Z.lt_ge_cases j 1) as [Hj1|Hj1]; [assert (j = 0) by lia; subst j; lia|nia].
Qed.

Lemma within_upper slen n f st D :
  2 <= n -> valid_samples slen n f st ->
  f <= D -> slen - 1 - (f + (n - 1) * st) <= D -> st <= 2 * D + 1 ->
  within slen n f st D.
Proof.
  intros Hn (Hf & Hst & Hl) H1 H2 H3 i Hi.
  destruct (Z.lt_ge_cases i f) as [Ci|Ci]; [exists 0; lia|].
  destruct (Z.lt_ge_cases (f + (n - 1) * st) i) as [Ci'|Ci']; [exists (n - 1); lia|].
  assert (E := Z.div_mod (i - f) st ltac:(lia)). assert (R := Z.mod_pos_bound (i - f) st ltac:(lia)).
  set (j := (i - f) / st) in *. set (r := (i - f) mod st) in *.
  assert (Hj : 0 <= j <= n - 1) by nia.
  destruct (Z.le_gt_cases r D) as [Cr|Cr].
  - exists j. split; [lia|]. lia.
  - exists (j + 1). split; [nia|]. nia.
Qed.

Lemma mul_cases m st' q : 1 <= m ->
  st' <= q - 1 /\ m * st' <= m * q - m \/
  st' = q /\ m * st' = m * q \/
  st' = q + 1 /\ m * st' = m * q + m \/
  q + 2 <= st' /\ m * st' >= m * q + 2 * m.
Proof.
  intro Hm. destruct (Z.le_gt_cases st' (q - 1)); [left; nia|]. right.
  destruct (Z.eq_dec st' q) as [->|]; [left; lia|]. right.
  destruct (Z.eq_dec st' (q + 1)) as [->|]; [left; lia|]. right. nia.
Qed.

Theorem minMaxSample_optimal {Wd : word} slen n first step last :
  2 <= n -> 2 * n <= slen -> slen < 4 * wq ->
  minMaxSample slen n = (first, step, last) ->
  valid_samples slen n first step /\ last = first + (n - 1) * step /\
  forall f' st' D, valid_samples slen n f' st' ->
    within slen n f' st' D -> within slen n first step D.
Proof.
  intros Hn Hs Hb E.
  destruct (minMaxSample_ok slen n Hn Hs Hb) as (f & st & E2 & Hf & Hst & Hl).
  rewrite E2 in E. injection E as -> -> <-.
  assert (V : valid_samples slen n first step) by (unfold valid_samples; lia).
  split; [exact V|]. split; [reflexivity|].
  intros f' st' D V' HD. destruct (within_lower _ _ _ _ _ Hn V' HD) as (L1 & L2 & L3).
  destruct V' as (Hf' & Hst' & Hl').
  apply within_upper; [exact Hn|exact V|..]; clear HD.
  all: rewrite minMaxSample_plain in E2 by assumption; unfold mmsPlain in E2.
  all: assert (Hd := Z.div_mod slen n ltac:(lia)); assert (Hr := Z.mod_pos_bound slen n ltac:(lia)).
  all: set (q := slen / n) in *; set (r := slen mod n) in *; clearbody q r.
  all: assert (Hq : 2 <= q) by nia.
  all: assert (Ep : (n - 1) * q = n * q - q) by lia.
  all: replace (slen - (n - 1) * q) with (q + r) in E2 by lia.
  all: destruct (half (q + r)) as (t & Et & Ht); rewrite Et in E2.
  all: destruct (half (q + r - (n - 1))) as (t' & Et' & Ht'); rewrite Et' in E2.
  all: destruct (half (q + 1)) as (u & Eu & Hu); rewrite Eu in E2.
  all: assert (G := mul_cases (n - 1) st' q ltac:(lia)).
  all: assert (Eq1 : (n - 1) * (q + 1) = (n - 1) * q + (n - 1)) by lia.
  all: remember ((n - 1) * st') as P' eqn:EP'; clear EP';
       remember ((n - 1) * q) as P0 eqn:EP0; clear EP0; remember (n * q) as NQ eqn:ENQ; clear ENQ.
  all: destruct (Z.ltb_spec (n - 1) (q + r)) as [C1|C1]; destruct (Z.ltb_spec u t) as [C2|C2];
    cbn [andb] in E2; injection E2 as <- <- _; try rewrite Eq1; lia.
Qed.
