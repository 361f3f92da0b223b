(** * The typed sorters on a slice that is already sorted: nothing is written *)

From Coq Require Import List ZArith Lia Bool Permutation.
From Verif Require Import Lang SeqLogic Base Scalar Typed SeqOps ScalarFacts TypedPart TypedPivot TypedShort.
Import ListNotations.
Open Scope Z_scope.

Local Arguments Z.mul : simpl never.
Local Arguments Z.add : simpl never.
Local Arguments Z.sub : simpl never.
Local Arguments Z.pow : simpl never.

(** ** Where the middle samples are *)

Lemma minMaxSample_mid {Wd : word} slen n f st l c d :
  (n = 3 /\ c = 1 /\ d = 1 \/ n = 5 /\ c = 2 /\ d = 2 \/ n = 6 /\ c = 2 /\ d = 3 \/
   n = 7 /\ c = 3 /\ d = 3 \/ n = 8 /\ c = 3 /\ d = 4) ->
  2 * n <= slen -> slen < 4 * wq -> minMaxSample slen n = (f, st, l) ->
  slen <= 3 * (f + c * st + 1) /\ slen <= 3 * (slen - (f + d * st)).
Proof.
  intros Hn Hs Hb. rewrite minMaxSample_plain by lia. unfold mmsPlain.
  destruct (half (slen / n + 1)) as (u & Eu & Hu). rewrite Eu.
  destruct (half (slen - (n - 1) * (slen / n))) as (t & Et & Ht). rewrite Et.
  destruct (half (slen - (n - 1) * (slen / n) - (n - 1))) as (t' & Et' & Ht'). rewrite Et'.
  assert (Hd := Z.div_mod slen n ltac:(lia)). assert (Hm := Z.mod_pos_bound slen n ltac:(lia)).
  set (q := slen / n) in *. set (r := slen mod n) in *. clearbody q r.
  destruct (Z.ltb_spec (n - 1) (slen - (n - 1) * q)); destruct (Z.ltb_spec u t); cbn [andb];
    intro E; injection E as <- <- <-;
    destruct Hn as [(-> & -> & ->)|[(-> & -> & ->)|[(-> & -> & ->)|[(-> & -> & ->)|(-> & -> & ->)]]]]; lia.
Qed.

Lemma minMaxFour_mid slen first step : 9 <= slen < 2 ^ 32 -> minMaxFour slen = (first, step) ->
  0 <= first /\ 1 <= step /\ first + 3 * step < slen /\
  slen <= 3 * (first + step + 1) /\ slen <= 3 * (slen - (first + 2 * step)).
Proof.
  intros H E. destruct (minMaxFour_cases slen ltac:(lia)) as (q & r & Hs & Hq & Hc).
  repeat (destruct Hc as [[-> Hc]|Hc]; [rewrite E in Hc; injection Hc as -> ->; lia|]).
  destruct Hc as [-> Hc]. rewrite E in Hc; injection Hc as -> ->; lia.
Qed.

(** ** Cost: [n log n] if the samples are spread, else as in the general case *)
Definition cLog (n : Z) : Z := 500 * n * (Z.log2 n + 1).
Definition cCalm (bal : bool) (n : Z) : Z := if bal then cLog n else cSort n.

Lemma cLog_low n : 1 <= n -> 500 * n <= cLog n.
Proof. intro H. unfold cLog. assert (0 <= Z.log2 n) by apply Z.log2_nonneg. nia. Qed.

Lemma cCalm_join bal a b n : 1 <= a -> a <= b -> a + b = n -> 9 <= n -> (bal = true -> n <= 3 * a) ->
  cCalm bal a + cCalm bal b + 100 * n <= cCalm bal n.
Proof.
  intros Ha Hab En Hn Hbal. unfold cCalm. destruct bal.
  - specialize (Hbal eq_refl). unfold cLog.
    assert (L1 := log2_half a n Ha ltac:(lia)). assert (L2 : Z.log2 b <= Z.log2 n) by (apply Z.log2_le_mono; lia).
    assert (L0 := Z.log2_nonneg n). set (x := Z.log2 a) in *. set (y := Z.log2 b) in *. set (z := Z.log2 n) in *.
    assert (500 * a * (x + 1) <= 500 * a * z) by nia.
    assert (500 * b * (y + 1) <= 500 * b * (z + 1)) by nia. nia.
  - assert (H := cSort_join a b n (100 * n) Ha ltac:(lia) En Hn ltac:(lia)). lia.
Qed.

Lemma cCalm_low bal n : 1 <= n -> 100 * n <= cCalm bal n.
Proof. intro H. unfold cCalm. destruct bal; [assert (X := cLog_low n H); lia|unfold cSort; nia]. Qed.

Lemma cCalm_mid n bal : 10 <= n -> 500 * n <= cCalm bal n.
Proof. intro H. unfold cCalm. destruct bal; [apply cLog_low; lia|unfold cSort; nia]. Qed.

Definition cInsC (n : Z) : Z := 6 * n + 8.

(** Insertion sort of a sorted slice. *)
Lemma swp_insertion_calm {P U} (bodyT : P -> cmd P U unit) (lt : U -> U -> bool) s v D :
  0 <= len s -> (forall i, 1 <= i < len s -> lt (v (off s + i)) (v (off s + (i - 1))) = false) ->
  swp bodyT D (Z.to_nat (cInsC (len s))) (reg s) (fun _ => False) (fun _ _ v' => v' = v) (insertion lt s) v.
Proof.
  intros Hl Hs. unfold insertion.
  apply (swp_loop_var bodyT D 5 (reg s) (fun _ => False)
    (fun h w => w = v /\ 1 <= h <= Z.max 1 (len s)) (fun h => Z.max 1 (len s) - h) (fun _ v' => v' = v)).
  2:{ split; [reflexivity|lia]. }
  2:{ lia. }
  2:{ unfold cInsC. lia. }
  intros h w (-> & Hh). destruct (Z.ltb_spec h (len s)) as [C|C]; [|apply swp_ret; reflexivity].
  assert (Rin : forall i, 0 <= i < len s -> reg s (off s + i)) by (intros; unfold reg; lia).
  apply swp_bind, swp_sget; [lia|lia|apply Rin; lia|].
  apply swp_bind, swp_loop; [lia|].
  apply swp_bind, swp_sget; [lia|lia|apply Rin; lia|].
  rewrite (Hs h) by lia. rewrite Z.eqb_refl. apply swp_ret. apply swp_ret. split; [|lia]. split; [reflexivity|lia].
Qed.

Section Calm.
Context {Wd : word}.
Context {T K : Type}.
Variable kd : kind T K.
Variable tn : tuning.
Variable bodyT : proc K -> cmd (proc K) T unit.
Variable ok : K -> Prop.
Hypothesis LW : laws kd ok.
Notation swp := (swp bodyT).
Let okT (x : T) : Prop := ok (key kd x).

(** The cells of [s] are sorted and hold ok keys. *)
Definition calm (s : slice) (v : Z -> T) : Prop :=
  okOn kd ok s v /\
  forall i j, 0 <= i -> i <= j -> j < len s -> leb kd (key kd (v (off s + i))) (key kd (v (off s + j))) = true.

Lemma calm_ok s v : calm s v -> forall i, 0 <= i < len s -> okT (v (off s + i)).
Proof. intros [H _] i Hi. apply H. unfold reg; lia. Qed.

Lemma calm_sub s s' v : (forall i, reg s' i -> reg s i) -> calm s v -> calm s' v.
Proof.
  intros H [H1 H2]. split; [intros i Hi; apply H1, H, Hi|].
  intros i j Hi Hij Hj. assert (Ri := H (off s' + i) ltac:(unfold reg; lia)). assert (Rj := H (off s' + j) ltac:(unfold reg; lia)).
  unfold reg in *. replace (off s' + i) with (off s + (off s' + i - off s)) by lia.
  replace (off s' + j) with (off s + (off s' + j - off s)) by lia. apply H2; lia.
Qed.

Lemma calm_ext s v w : (forall i, reg s i -> w i = v i) -> calm s v -> calm s w.
Proof.
  intros E [H1 H2]. split; [intros i Hi; rewrite E by exact Hi; apply H1, Hi|].
  intros i j Hi Hij Hj. rewrite !E by (unfold reg; lia). apply H2; lia.
Qed.

Lemma swp_ins_calm s v D : 0 <= len s -> calm s v ->
  swp D (Z.to_nat (cInsC (len s))) (reg s) (fun _ => False) (fun _ _ v' => v' = v) (insertion (ltT kd) s) v.
Proof.
  intros Hl H. apply swp_insertion_calm; [exact Hl|]. intros i Hi. unfold ltT.
  apply (le_nlt kd ok LW); [apply (calm_ok s v H); lia..|]. apply (proj2 H); lia.
Qed.

Section Piv.
Variable pv : K.
Hypothesis okpv : ok pv.

Lemma calm_Lo s v i p : calm s v -> 0 <= i <= p -> p < len s -> Lo kd pv (v (off s + p)) -> Lo kd pv (v (off s + i)).
Proof.
  intros H Hi Hp HL. unfold Lo in *.
  apply (law_trans _ _ LW _ (key kd (v (off s + p)))); [apply (calm_ok s v H); lia|apply (calm_ok s v H); lia|exact okpv| |exact HL].
  apply (proj2 H); lia.
Qed.

Lemma calm_Hi s v i p : calm s v -> 0 <= p <= i -> i < len s -> Hi kd pv (v (off s + p)) -> Hi kd pv (v (off s + i)).
Proof.
  intros H Hi Hp HL. unfold TypedPart.Hi in *.
  apply (law_trans _ _ LW _ (key kd (v (off s + p)))); [exact okpv|apply (calm_ok s v H); lia|apply (calm_ok s v H); lia|exact HL|].
  apply (proj2 H); lia.
Qed.

Lemma calm_sLo_sHi s v i j : calm s v -> 0 <= i <= j -> j < len s -> sHi kd pv (v (off s + i)) ->
  Lo kd pv (v (off s + j)) -> False.
Proof.
  intros H Hij Hj H1 H2. apply (sHi_nLo kd ok LW pv okpv (v (off s + i))); [apply (calm_ok s v H); lia|exact H1|].
  eapply calm_Lo; [exact H| | |exact H2]; lia.
Qed.

Lemma calm_sHi_sLo s v i j : calm s v -> 0 <= i <= j -> j < len s -> sLo kd pv (v (off s + j)) ->
  Hi kd pv (v (off s + i)) -> False.
Proof.
  intros H Hij Hj H1 H2. apply (sLo_nHi kd ok LW pv okpv (v (off s + j))); [apply (calm_ok s v H); lia|exact H1|].
  eapply calm_Hi; [exact H| | |exact H2]; lia.
Qed.

(** Where partOne splits a sorted slice. *)
Definition cut (s : slice) (v : Z -> T) (k : Z) : Prop :=
  0 <= k <= len s /\
  (forall p, 0 <= p < len s -> Lo kd pv (v (off s + p)) -> p + 1 <= k \/ len s <= 2 * k + 1) /\
  (forall p, 0 <= p < len s -> Hi kd pv (v (off s + p)) -> k <= p \/ 2 * k <= len s + 1).

Definition oneC (s : slice) (v : Z -> T) (st : label) (w : Z -> T) : Prop :=
  w = v /\
  match st with
  | LStart l h => 0 <= l /\ l - 1 <= h /\ l + h = len s - 1
  | LLast l h => 0 <= l /\ l - 1 <= h <= l /\ l + h = len s - 1
  | LNext l h => 0 <= l < h /\ l + h = len s - 1
  | LSecond l h => 0 <= l < h /\ h <= len s - 1 /\ 2 * l < len s - 1 /\ sHi kd pv (v (off s + l))
  | LScan l h => 0 <= l < h /\ h <= len s - 1 /\ 2 * h > len s - 1 /\ sLo kd pv (v (off s + h))
  | LSwap _ _ => False
  end.

Lemma swp_partOne_calm s v D : 0 <= len s -> calm s v ->
  swp D (Z.to_nat (cPart (len s))) (reg s) (fun _ => False) (fun k _ v' => v' = v /\ cut s v k) (partOne kd s pv) v.
Proof.
  intros Hl Hc. unfold partOne.
  apply (swp_loop_var bodyT D 8 (reg s) (fun _ => False) (oneC s v) oneMu (fun k v' => v' = v /\ cut s v k)).
  2:{ split; [reflexivity|lia]. }
  2:{ cbn [oneMu]. lia. }
  2:{ cbn [oneMu]. unfold cPart. lia. }
  assert (Rin : forall i, 0 <= i < len s -> reg s (off s + i)) by (intros; unfold reg; lia).
  assert (Hok := calm_ok s v Hc).
  intros st w [-> Hst]. destruct st as [l h|l h|l h|l h|l h|l h].
  - destruct Hst as (H1 & H2 & H3 & H4). cbv zeta. destruct (Z.leb_spec (h - 1) l) as [C|C].
    + apply swp_ret. split; [reflexivity|]. split; [lia|]. split; intros p Hp Hx; [|right; lia].
      left. destruct (Z.lt_ge_cases p l) as [G|G]; [lia|].
      exfalso. eapply calm_sLo_sHi with (i := l) (j := p); eauto; lia.
    + apply swp_bind, swp_sget; [lia|lia|apply Rin; lia|].
      destruct (leb kd (key kd (v (off s + (h - 1)))) pv) eqn:E.
      * exfalso. eapply calm_sLo_sHi with (i := l) (j := h - 1); eauto; lia.
      * apply swp_ret. split; [|cbn [oneMu]; lia]. split; [reflexivity|]. split; [lia|]. split; [lia|]. split; [lia|exact H4].
  - contradiction.
  - apply swp_ret. split; [|cbn [oneMu]; lia]. split; [reflexivity|lia].
  - destruct Hst as (H1 & H2 & H3). destruct (Z.leb_spec h l) as [C|C].
    { apply swp_ret. split; [|cbn [oneMu]; lia]. split; [reflexivity|lia]. }
    apply swp_bind, swp_sget; [lia|lia|apply Rin; lia|].
    destruct (leb kd pv (key kd (v (off s + h)))) eqn:E.
    + apply swp_bind, swp_sget; [lia|lia|apply Rin; lia|].
      destruct (ltb kd pv (key kd (v (off s + l)))) eqn:E2; apply swp_ret.
      * split; [|cbn [oneMu]; lia]. split; [reflexivity|]. split; [lia|]. split; [lia|]. split; [lia|exact E2].
      * split; [|cbn [oneMu]; lia]. split; [reflexivity|lia].
    + apply swp_ret. split; [|cbn [oneMu]; lia]. split; [reflexivity|]. split; [lia|]. split; [lia|]. split; [lia|].
      apply (nHi_sLo kd ok LW pv okpv); [apply Hok; lia|exact E].
  - destruct Hst as (H1 & H2 & H3 & H4).
    apply swp_bind, swp_sget; [lia|lia|apply Rin; lia|].
    destruct (leb kd pv (key kd (v (off s + l)))) eqn:E.
    { exfalso. eapply calm_sHi_sLo with (i := l) (j := h); eauto; lia. }
    cbv zeta. destruct (Z.leb_spec h (l + 1)) as [C|C]; apply swp_ret.
    + split; [reflexivity|]. split; [lia|]. split; intros p Hp Hx; [right; lia|].
      left. destruct (Z.lt_ge_cases h p) as [G|G]; [lia|].
      exfalso. eapply calm_sHi_sLo with (i := p) (j := h); eauto; lia.
    + split; [|cbn [oneMu]; lia]. split; [reflexivity|]. split; [lia|]. split; [lia|]. split; [lia|exact H4].
  - destruct Hst as (H1 & H2 & H3). destruct (Z.eqb_spec l h) as [E|E].
    + apply swp_bind, swp_sget; [lia|lia|apply Rin; lia|].
      destruct (ltb kd (key kd (v (off s + h))) pv); apply swp_ret;
        (split; [reflexivity|]; split; [lia|]; split; intros; right; lia).
    + apply swp_ret. split; [reflexivity|]. split; [lia|]. split; intros; right; lia.
Qed.

(** partTwo and the gap loops when the outer ranges are already on their sides. *)
Section Two.
Variable s : slice.
Variable v : Z -> T.
Variables l0 h0 : Z.
Hypothesis Hl0 : -1 <= l0.
Hypothesis Hlh : l0 < h0.
Hypothesis Hh0 : h0 <= len s.
Hypothesis HH0 : 0 <= h0.
Hypothesis HL : forall i, 0 <= i <= l0 -> okT (v (off s + i)) /\ Lo kd pv (v (off s + i)).
Hypothesis HH : forall i, h0 <= i < len s -> okT (v (off s + i)) /\ Hi kd pv (v (off s + i)).

Lemma swp_partTwo_calm D :
  swp D (Z.to_nat (cPart2 (len s))) (regTwo s l0 h0) (fun _ => False)
    (fun r _ v' => v' = v /\ (0 <= r <= l0 \/ h0 <= r <= len s)) (partTwo kd s (l0 + 1) h0 pv) v.
Proof.
  unfold partTwo. replace (l0 + 1 - 1) with l0 by lia. cbv zeta.
  destruct (Z.leb_spec h0 l0) as [C|_]; [lia|].
  apply (swp_loop_var bodyT D 8 (regTwo s l0 h0) (fun _ => False)
    (fun st w => w = v /\ match st with
       | LStart l h => -1 <= l <= l0 /\ h0 <= h <= len s
       | LNext l h => 0 <= l <= l0 /\ h0 <= h < len s
       | _ => False end) (twoMu s) (fun r v' => v' = v /\ (0 <= r <= l0 \/ h0 <= r <= len s))).
  2:{ split; [reflexivity|lia]. }
  2:{ cbn [twoMu]. lia. }
  2:{ cbn [twoMu]. unfold cPart2. lia. }
  intros st w [-> Hst]. destruct st as [l h|l h|l h|l h|l h|l h]; try contradiction.
  - apply swp_ret. split; [|cbn [twoMu]; lia]. split; [reflexivity|lia].
  - destruct (Z.ltb_spec l 0); [apply swp_ret; split; [reflexivity|lia]|].
    destruct (Z.leb_spec (len s) h); [apply swp_ret; split; [reflexivity|lia]|].
    apply swp_bind, swp_sget; [lia|lia|unfold regTwo; lia|].
    destruct (HH h ltac:(lia)) as [_ E]. unfold Hi in E. rewrite E.
    apply swp_bind, swp_sget; [lia|lia|unfold regTwo; lia|].
    destruct (HL l ltac:(lia)) as [O1 E1].
    destruct (ltb kd pv (key kd (v (off s + l)))) eqn:E2.
    + exfalso. exact (sHi_nLo kd ok LW pv okpv _ O1 E2 E1).
    + apply swp_ret. split; [|cbn [twoMu]; lia]. split; [reflexivity|lia].
Qed.

Lemma swp_gapLow_calm D r k : -1 <= r <= l0 -> l0 < len s ->
  swp D (Z.to_nat (cGap (len s))) (reg s) (fun _ => False) (fun k' _ v' => v' = v /\ k' = k) (gapLow kd s pv r k) v.
Proof.
  intros Hr Hl. unfold gapLow.
  apply (swp_loop_var bodyT D 5 (reg s) (fun _ => False)
    (fun '(r, k') w => w = v /\ k' = k /\ -1 <= r <= l0) (fun '(r, _) => r + 1) (fun k' v' => v' = v /\ k' = k)).
  2:{ split; [reflexivity|]. split; [reflexivity|lia]. }
  2:{ lia. }
  2:{ unfold cGap. lia. }
  intros [r' k'] w (-> & -> & Hr'). destruct (Z.leb_spec 0 r'); [|apply swp_ret; split; reflexivity].
  apply swp_bind, swp_sget; [lia|lia|unfold reg; lia|].
  destruct (HL r' ltac:(lia)) as [O1 E1].
  destruct (ltb kd pv (key kd (v (off s + r')))) eqn:E2.
  - exfalso. exact (sHi_nLo kd ok LW pv okpv _ O1 E2 E1).
  - apply swp_ret. split; [|lia]. split; [reflexivity|]. split; [reflexivity|lia].
Qed.

Lemma swp_gapHigh_calm D r k : h0 <= r <= len s ->
  swp D (Z.to_nat (cGap (len s))) (reg s) (fun _ => False) (fun k' _ v' => v' = v /\ k' = k) (gapHigh kd s pv r k) v.
Proof.
  intros Hr. unfold gapHigh.
  apply (swp_loop_var bodyT D 5 (reg s) (fun _ => False)
    (fun '(r, k') w => w = v /\ k' = k /\ h0 <= r <= len s) (fun '(r, _) => len s - r) (fun k' v' => v' = v /\ k' = k)).
  2:{ split; [reflexivity|]. split; [reflexivity|lia]. }
  2:{ lia. }
  2:{ unfold cGap. lia. }
  intros [r' k'] w (-> & -> & Hr'). destruct (Z.ltb_spec r' (len s)); [|apply swp_ret; split; reflexivity].
  apply swp_bind, swp_sget; [lia|lia|unfold reg; lia|].
  destruct (HH r' ltac:(lia)) as [O1 E1].
  destruct (ltb kd (key kd (v (off s + r'))) pv) eqn:E2.
  - exfalso. exact (sLo_nHi kd ok LW pv okpv _ O1 E2 E1).
  - apply swp_ret. split; [|lia]. split; [reflexivity|]. split; [reflexivity|lia].
Qed.

End Two.
End Piv.

(** ** Pivots *)

(** [pv] lies between the elements at [p1] and [p2], which are not near the ends if [bal]. *)
Definition midPivot (bal : bool) (s : slice) (v : Z -> T) (pv : K) : Prop :=
  ok pv /\ exists p1 p2, 0 <= p1 < len s /\ 0 <= p2 < len s /\
    Lo kd pv (v (off s + p1)) /\ Hi kd pv (v (off s + p2)) /\
    (bal = true -> len s <= 3 * (p1 + 1) /\ len s <= 3 * (len s - p2)).

Lemma tall (L : list Z) c : NoDup L -> (Z.to_nat (c + 1) <= length L)%nat -> (forall x, In x L -> 0 <= x) -> 0 <= c ->
  exists x, In x L /\ c <= x.
Proof.
  intros Hn Hl Hp Hc. destruct (Exists_dec (fun x => c <= x) L) as [H|H].
  - intro x. destruct (Z_le_dec c x); [left; assumption|right; assumption].
  - apply Exists_exists in H. exact H.
  - exfalso. assert (Hi : incl L (zrange 0 c)).
    { intros x Hx. apply In_zrange. split; [apply Hp; exact Hx|]. destruct (Z.lt_ge_cases x c) as [G|G]; [exact G|].
      exfalso. apply H, Exists_exists. exists x. split; assumption. }
    assert (HH := NoDup_incl_length Hn Hi). rewrite zrange_length in HH. lia.
Qed.

Lemma swp_pivot_calm s n v D :
  (n = 8 \/ n = 6) -> 2 * n <= len s -> len s < 2 * wq -> calm s v ->
  swp D (Z.to_nat cPivot) (reg s) (fun _ => False)
    (fun pv _ v' => v' = v /\ midPivot true s v pv)
    (pivot kd s (nsamples kd n)) v.
Proof.
  intros Hn Hl Hb Hcm. assert (Hok := calm_ok s v Hcm). unfold pivot.
  set (m := nsamples kd n).
  assert (Hm : m = n /\ even kd = true \/ m = n - 1 /\ even kd = false).
  { unfold m, nsamples. destruct (even kd); auto. }
  assert (Hm5 : 5 <= m <= 8) by lia.
  rewrite uw_small by lia.
  destruct (minMaxSample_ok (Wd := Wd) (len s) m ltac:(lia) ltac:(lia) ltac:(lia)) as (first & step & E & Hf & Hst & Hlast).
  rewrite E. apply swp_bind.
  eapply swp_apply; [apply (swp_samples kd bodyT s m first step v D); lia|lia|unfold cPivot; lia|auto|auto|].
  cbv beta. intros smp n1 v1 [-> ->] _ Hn1.
  set (vl := fun j => key kd (v (off s + (first + (m - 1 - j) * step)))).
  assert (Hpos : forall j, 0 <= j < m -> 0 <= first + (m - 1 - j) * step < len s) by (intros; nia).
  assert (Hvl : forall j, 0 <= j < m -> ok (vl j)) by (intros; unfold vl; apply Hok, Hpos; assumption).
  eapply (swp_local bodyT (fun _ => Panic) D n1 (Z.to_nat (cIns m)) m _ _
    (fun vl' => bubble (ltb kd) (seg vl 0 m) (seg vl' 0 m) /\ ascending (ltb kd) 0 m vl')
    _ _ _ vl v (fun _ => eq_refl)).
  { eapply swp_use; [apply (swp_insertion (fun _ => Panic) (ltb kd) ok (law_asym _ _ LW)) with (s := Slice 0 m) (v0 := vl) (D := O)|..].
    - intros x y z Hx Hy Hz H1 H2. apply (le_nlt kd ok LW); auto.
      apply (law_trans _ _ LW x y z); auto; apply (nlt_le kd ok LW); auto.
    - simpl. lia.
    - simpl. intros i Hi. apply Hvl. lia.
    - lia.
    - simpl. lia.
    - unfold reg; simpl. intros; lia.
    - unfold reg; simpl. intros; lia.
    - change (off (Slice 0 m)) with 0. change (len (Slice 0 m)) with m. rewrite Z.add_0_l. intros a k v' _ H. exact H. }
  { unfold cPivot, cIns in *. nia. }
  intros vl' k Hk [Hbub Hasc].
  assert (Hperm := bubble_perm _ _ _ Hbub).
  assert (Hvl' : forall j, 0 <= j < m -> ok (vl' j)).
  { apply (permR_forall 0 m vl vl' ok); [apply permR_seg; exact Hperm|exact Hvl]. }
  assert (Hle : forall i j, 0 <= i -> i <= j -> j < m -> leb kd (vl' i) (vl' j) = true).
  { intros i j Hi Hij Hj. destruct (Z.eq_dec i j) as [->|]; [apply (le_refl kd ok LW); apply Hvl'; lia|].
    apply (nlt_le kd ok LW); [apply Hvl'; lia..|]. apply Hasc; lia. }
  (* of the samples in order, number c is <= pv and number d is >= pv *)
  assert (Hgood : forall pv c d, ok pv -> 0 <= c -> c <= d < m ->
            leb kd (vl' c) pv = true -> leb kd pv (vl' d) = true ->
            Lo kd pv (v (off s + (first + c * step))) /\ Hi kd pv (v (off s + (first + d * step)))).
  { intros pv c d Hpv Hc Hcd H1 H2. split.
    - set (f := fun x => leb kd x pv).
      destruct (tall (map (fun j => m - 1 - j) (filter (fun j => f (vl j)) (zrange 0 m))) c) as (x & Hx & Hcx).
      + apply FinFun.Injective_map_NoDup; [|apply NoDup_filter, NoDup_zrange]. intros x y Hxy. lia.
      + rewrite map_length. rewrite <- (map_length vl).
        rewrite <- (filter_map f vl). fold (seg vl 0 m).
        rewrite <- (filter_perm_length f _ _ Hperm).
        rewrite <- (seg_app vl' 0 (c + 1) m) by lia. rewrite filter_app, app_length.
        rewrite (filter_all f (seg vl' 0 (c + 1))).
        * rewrite seg_length. lia.
        * intros x Hx. apply In_seg in Hx. destruct Hx as (i & Hi & <-). unfold f.
          apply (law_trans _ _ LW _ (vl' c)); [apply Hvl'; lia..|exact Hpv|apply Hle; lia|exact H1].
      + intros x Hx. apply in_map_iff in Hx. destruct Hx as (j & <- & Hj). apply filter_In in Hj.
        destruct Hj as [Hj _]. apply In_zrange in Hj. lia.
      + exact Hc.
      + apply in_map_iff in Hx. destruct Hx as (j & <- & Hj). apply filter_In in Hj. destruct Hj as [Hj Hfj].
        apply In_zrange in Hj. assert (Hp := Hpos j Hj).
        apply (calm_Lo pv Hpv s v (first + c * step) (first + (m - 1 - j) * step) Hcm); [nia|lia|exact Hfj].
    - set (f := fun x => leb kd pv x).
      destruct (tall (filter (fun j => f (vl j)) (zrange 0 m)) (m - 1 - d)) as (x & Hx & Hcx).
      + apply NoDup_filter, NoDup_zrange.
      + rewrite <- (map_length vl).
        rewrite <- (filter_map f vl). fold (seg vl 0 m).
        rewrite <- (filter_perm_length f _ _ Hperm).
        rewrite <- (seg_app vl' 0 d m) by lia. rewrite filter_app, app_length.
        rewrite (filter_all f (seg vl' d m)).
        * rewrite seg_length. lia.
        * intros x Hx. apply In_seg in Hx. destruct Hx as (i & Hi & <-). unfold f.
          apply (law_trans _ _ LW _ (vl' d)); [exact Hpv|apply Hvl'; lia..|exact H2|apply Hle; lia].
      + intros x Hx. apply filter_In in Hx. destruct Hx as [Hj _]. apply In_zrange in Hj. lia.
      + lia.
      + apply filter_In in Hx. destruct Hx as [Hj Hfj].
        apply In_zrange in Hj. assert (Hp := Hpos x Hj).
        apply (calm_Hi pv Hpv s v (first + d * step) (first + (m - 1 - x) * step) Hcm); [nia|nia|exact Hfj]. }
  assert (Hfin : forall pv c d, ok pv ->
            (m = 5 /\ c = 2 /\ d = 2 \/ m = 6 /\ c = 2 /\ d = 3 \/ m = 7 /\ c = 3 /\ d = 3 \/ m = 8 /\ c = 3 /\ d = 4) ->
            leb kd (vl' c) pv = true -> leb kd pv (vl' d) = true -> midPivot true s v pv).
  { intros pv c d Hpv Hcd H1 H2. split; [exact Hpv|].
    destruct (Hgood pv c d Hpv ltac:(lia) ltac:(lia) H1 H2) as [G1 G2].
    exists (first + c * step), (first + d * step).
    split; [nia|]. split; [nia|]. split; [exact G1|]. split; [exact G2|]. intros _.
    apply (minMaxSample_mid (Wd := Wd) (len s) m first step (first + (m - 1) * step) c d); [lia|lia|lia|exact E]. }
  rewrite shiftr1. destruct Hm as [[Em Ee]|[Em Ee]]; rewrite Ee.
  - assert (Hd : m = 8 /\ m / 2 = 4 \/ m = 6 /\ m / 2 = 3) by (destruct Hn; subst n; rewrite Em; [left|right]; split; reflexivity).
    rewrite !lget_seg by lia. apply swp_ret. split; [reflexivity|].
    destruct (law_mean _ _ LW Ee (vl' (m / 2 - 1)) (vl' (m / 2))) as [Hk1 Hk2]; [apply Hvl'; lia..|].
    assert (Hle1 := Hle (m / 2 - 1) (m / 2) ltac:(lia) ltac:(lia) ltac:(lia)).
    assert (ok (vl' (m / 2 - 1))) by (apply Hvl'; lia). assert (ok (vl' (m / 2))) by (apply Hvl'; lia).
    assert (Hb2 : leb kd (vl' (m / 2 - 1)) (mean kd (vl' (m / 2 - 1)) (vl' (m / 2))) = true /\ leb kd (mean kd (vl' (m / 2 - 1)) (vl' (m / 2))) (vl' (m / 2)) = true).
    { destruct Hk2 as [?|[H2 H3]]; [assumption|]. split.
      - apply (law_trans _ _ LW _ (vl' (m / 2))); auto.
      - apply (law_trans _ _ LW _ (vl' (m / 2 - 1))); auto. }
    apply (Hfin _ (m / 2 - 1) (m / 2) Hk1 ltac:(lia) (proj1 Hb2) (proj2 Hb2)).
  - assert (Hd : m = 7 /\ m / 2 = 3 \/ m = 5 /\ m / 2 = 2) by (destruct Hn; subst n; rewrite Em; [left|right]; split; reflexivity).
    rewrite !lget_seg by lia. apply swp_ret. split; [reflexivity|].
    apply (Hfin (vl' (m / 2)) (m / 2) (m / 2) ltac:(apply Hvl'; lia) ltac:(lia)
                   ltac:(apply (le_refl kd ok LW), Hvl'; lia) ltac:(apply (le_refl kd ok LW), Hvl'; lia)).
Qed.

Lemma swp_pivotShort_calm s v D bal :
  9 <= len s -> len s < 2 * wq -> (bal = true -> len s < 2 ^ 32) -> calm s v ->
  swp D 4 (reg s) (fun _ => False)
    (fun pv _ v' => v' = v /\ midPivot bal s v pv)
    (pivotShort kd s) v.
Proof.
  intros Hl Hb Hbal Hcm. assert (Hok := calm_ok s v Hcm).
  destruct bal.
  2:{ eapply swp_conseq; [apply (swp_pivotShort kd bodyT ok LW s v D Hl Hb Hok)|].
      cbv beta. intros pv m v' _ (-> & Hpv & (i & Hi & H1) & (j & Hj & H2)). split; [reflexivity|].
      split; [exact Hpv|]. exists i, j. split; [lia|]. split; [lia|]. split; [exact H1|]. split; [exact H2|discriminate]. }
  specialize (Hbal eq_refl). unfold pivotShort. destruct (even kd) eqn:Ee.
  - rewrite (u32_small (len s)) by lia.
    destruct (minMaxFour (len s)) as [first step] eqn:E.
    destruct (minMaxFour_mid (len s) first step ltac:(lia) E) as (HA & HB & HC & HD & HE).
    rewrite (u32_small (2 * step)), (u32_small (3 * step)) by lia.
    rewrite (u32_small (first + step)), (u32_small (first + 2 * step)), (u32_small (first + 3 * step)) by lia.
    apply swp_bind, swp_sget; [lia|lia|unfold reg; lia|].
    apply swp_bind, swp_sget; [lia|lia|unfold reg; lia|].
    apply swp_bind, swp_sget; [lia|lia|unfold reg; lia|].
    apply swp_bind, swp_sget; [lia|lia|unfold reg; lia|]. cbv zeta.
    assert (N : forall i j, 0 <= i -> i <= j -> j < len s -> ltb kd (key kd (v (off s + j))) (key kd (v (off s + i))) = false).
    { intros i j Hi Hij Hj. apply (le_nlt kd ok LW); [apply Hok; lia..|]. apply (proj2 Hcm); lia. }
    rewrite (N (first + step) (first + 3 * step)) by lia. rewrite (N first (first + 2 * step)) by lia.
    rewrite (N (first + 2 * step) (first + 3 * step)) by lia. rewrite (N first (first + step)) by lia.
    apply swp_ret. split; [reflexivity|].
    set (b := key kd (v (off s + (first + step)))). set (c := key kd (v (off s + (first + 2 * step)))).
    assert (okb : ok b) by (apply Hok; lia). assert (okc : ok c) by (apply Hok; lia).
    assert (Hbc : leb kd b c = true) by (apply (proj2 Hcm); lia).
    destruct (law_mean _ _ LW Ee b c okb okc) as [okpv Hbet].
    assert (Hb2 : leb kd b (mean kd b c) = true /\ leb kd (mean kd b c) c = true).
    { destruct Hbet as [?|[H2 H3]]; [assumption|]. split.
      - apply (law_trans _ _ LW _ c); auto.
      - apply (law_trans _ _ LW _ b); auto. }
    split; [exact okpv|]. exists (first + step), (first + 2 * step). split; [lia|]. split; [lia|].
    split; [exact (proj1 Hb2)|]. split; [exact (proj2 Hb2)|]. intros _. lia.
  - rewrite (uw_small (len s)) by lia.
    destruct (minMaxSample_ok (Wd := Wd) (len s) 3 ltac:(lia) ltac:(lia) ltac:(lia)) as (first & step & E & Hf & Hst & Hlast).
    destruct (minMaxSample_mid (Wd := Wd) (len s) 3 first step (first + (3 - 1) * step) 1 1 ltac:(lia) ltac:(lia) ltac:(lia) E) as [M1 M2].
    rewrite E. rewrite (uw_small (first + step)) by lia.
    apply swp_bind, swp_sget; [lia|lia|unfold reg; lia|].
    apply swp_bind, swp_sget; [lia|lia|unfold reg; lia|].
    apply swp_bind, swp_sget; [lia|lia|unfold reg; lia|]. cbv zeta.
    assert (N : forall i j, 0 <= i -> i <= j -> j < len s -> ltb kd (key kd (v (off s + j))) (key kd (v (off s + i))) = false).
    { intros i j Hi Hij Hj. apply (le_nlt kd ok LW); [apply Hok; lia..|]. apply (proj2 Hcm); lia. }
    rewrite (N first (first + step)) by lia. rewrite (N (first + step) (first + (3 - 1) * step)) by lia.
    apply swp_ret. split; [reflexivity|].
    split; [apply Hok; lia|]. exists (first + step), (first + step). split; [lia|]. split; [lia|].
    split; [apply (le_refl kd ok LW), Hok; lia|]. split; [apply (le_refl kd ok LW), Hok; lia|]. intros _. lia.
Qed.

(** Splitting a sorted slice: proper, and not near the ends if [bal]. *)
Definition cutMid (bal : bool) (s : slice) (k : Z) : Prop :=
  1 <= k <= len s - 1 /\ (bal = true -> len s <= 3 * k /\ len s <= 3 * (len s - k)).

Lemma cut_mid bal s v pv k : 4 <= len s -> midPivot bal s v pv -> cut pv s v k -> cutMid bal s k.
Proof.
  intros Hl (Hpv & p1 & p2 & H1 & H2 & H3 & H4 & H5) (G1 & G2 & G3).
  specialize (G2 p1 H1 H3). specialize (G3 p2 H2 H4). split; [lia|]. intro E. specialize (H5 E). lia.
Qed.

Lemma swp_partOne_mid bal s pv v D : 4 <= len s -> calm s v -> midPivot bal s v pv ->
  swp D (Z.to_nat (cPart (len s))) (reg s) (fun _ => False) (fun k _ v' => v' = v /\ cutMid bal s k) (partOne kd s pv) v.
Proof.
  intros Hl Hc Hp. eapply swp_conseq; [apply (swp_partOne_calm pv (proj1 Hp) s v D ltac:(lia) Hc)|].
  cbv beta. intros k m v' _ [-> H]. split; [reflexivity|]. eapply cut_mid; eassumption.
Qed.

End Calm.
