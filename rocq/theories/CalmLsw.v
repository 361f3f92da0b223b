(** * sortyLsw.go on a collection that is already sorted: no exchange *)

From Coq Require Import List ZArith Lia Bool.
From Verif Require Import Lang SeqLogic ConcLogic Base Scalar Typed SeqOps ScalarFacts TypedPart TypedPivot
  TypedShort ConcSort TypedLong TypedSort Spec Lsw LswSeq LswPart LswLong LswSort Calm CalmLong CalmSort.
Import ListNotations.
Open Scope Z_scope.

Local Arguments Z.mul : simpl never.
Local Arguments Z.add : simpl never.
Local Arguments Z.sub : simpl never.
Local Arguments Z.pow : simpl never.

Definition lswCalm (tn : tuning) : grain := Grain (Z.to_nat (maxLenRecFC tn)) true.

(** No element compares less than one before it. *)
Definition still {T} (lt : T -> T -> bool) (lo hi : Z) (v : Z -> T) : Prop :=
  forall i j, lo <= i -> i < j -> j <= hi -> lt (v j) (v i) = false.

Lemma still_sub {T} (lt : T -> T -> bool) lo hi a b v : lo <= a -> b <= hi -> still lt lo hi v -> still lt a b v.
Proof. intros H1 H2 H i j Hi Hij Hj. apply H; lia. Qed.

Lemma still_ext {T} (lt : T -> T -> bool) lo hi v w :
  (forall i, lo <= i <= hi -> w i = v i) -> still lt lo hi v -> still lt lo hi w.
Proof. intros E H i j Hi Hij Hj. rewrite !E by lia. apply H; lia. Qed.

Section Calm.
Context {Wd : word}.
Context {T : Type}.
Variable lt : T -> T -> bool.
Hypothesis Hirr : forall x, lt x x = false.
Variable cap : Z.
Variable tn : tuning.
Variable meanI : Z -> Z -> Z.
Hypothesis HmeanI : meanOk meanI.
Hypothesis HM : meanEven meanI.
Hypothesis Hnear : meanNear meanI.

Notation maxIns := (maxLenInsFC tn).
Notation maxRec := (maxLenRecFC tn).
Hypothesis HIns : 9 <= maxIns.
Hypothesis HRec : 2 * maxIns < maxRec.

Notation body := (lswBody lt cap tn meanI).
Notation swp := (swp body).
Notation still := (still lt).
Notation cC := (cCalm true).
Notation none := (fun _ : Z => False).

(** A Lesswap call that finds nothing to exchange. *)
Lemma swp_idle D n (Rd Wr : Z -> Prop) (Q : bool -> nat -> (Z -> T) -> Prop) i k r s v :
  (1 < n)%nat -> 0 <= i < cap -> 0 <= k < cap -> 0 <= r < cap -> 0 <= s < cap -> Rd i -> Rd k ->
  lt (v i) (v k) = false -> Q false (n - 2)%nat v -> swp D n Rd Wr Q (lsw lt cap i k r s) v.
Proof.
  intros Hn Hi Hk Hr Hs Ri Rk E HQ. rewrite lsw_strict by assumption.
  apply swp_bind, swp_cget; [lia|lia|assumption|].
  apply swp_bind, swp_cget; [lia|lia|assumption|]. rewrite E. apply swp_ret.
  replace (n - 1 - 1)%nat with (n - 2)%nat by lia. exact HQ.
Qed.

Definition cInsL (m : Z) : Z := 6 * m + 8.

Lemma swp_insLoop_calm first step m a b v D last : 1 <= step -> 1 <= m -> 0 <= a -> a <= first -> last <= b -> b < cap ->
  first + m * step < 2 * wq -> last = first + (m - 1) * step -> still a b v ->
  swp D (Z.to_nat (cInsL m)) (reg (rng a b)) none (fun _ _ v' => v' = v) (insLoop lt cap step first last) v.
Proof.
  intros Hst Hm Ha0 Ha Hb Hcap Hw El Hs. unfold insLoop.
  apply (swp_loop_var body D 5 (reg (rng a b)) none
    (fun h w => w = v /\ exists j, h = first + j * step /\ 1 <= j <= m)
    (fun h => Z.max 0 (m - (h - first) / step)) (fun _ v' => v' = v)).
  2:{ split; [reflexivity|]. exists 1. lia. }
  2:{ lia. }
  2:{ replace (first + step - first) with (1 * step) by lia. rewrite Z.div_mul by lia. unfold cInsL. lia. }
  intros h w (-> & j & -> & Hj).
  destruct (Z.leb_spec (first + j * step) last) as [C|C]; [|apply swp_ret; reflexivity].
  assert (Hj' : j < m) by nia.
  assert (B1 : a <= first + (j - 1) * step) by nia.
  assert (B2 : first + j * step <= b) by lia.
  replace (first + j * step - step) with (first + (j - 1) * step) by lia.
  apply swp_bind. apply swp_loop; [lia|].
  replace (first + j * step - step) with (first + (j - 1) * step) by lia.
  apply swp_bind, swp_idle; [lia|nia|nia|nia|nia|unfold reg; simpl; nia|unfold reg; simpl; nia|apply Hs; nia|].
  apply swp_ret, swp_ret.
  replace (first + j * step + step) with (first + (j + 1) * step) by lia.
  rewrite iw_small by nia. split.
  - split; [reflexivity|]. exists (j + 1). lia.
  - replace (first + (j + 1) * step - first) with ((j + 1) * step) by lia.
    replace (first + j * step - first) with (j * step) by lia. rewrite !Z.div_mul by lia. lia.
Qed.

Lemma swp_lswIns_calm lo hi v D :
  0 <= lo -> lo <= hi -> hi < cap -> 11 * hi + 29 < 20 * wq -> still lo hi v ->
  swp D (Z.to_nat (cInsL (hi - lo + 1))) (reg (rng lo hi)) none (fun _ _ v' => v' = v) (lswInsertion lt cap lo hi) v.
Proof.
  intros H0 H1 H2 H3 Hs. rewrite (lswInsertion_loop (Wd := Wd)).
  apply (swp_insLoop_calm lo 1 (hi - lo + 1) lo hi v D hi); auto; lia.
Qed.

(** ** Pivot selection *)

Definition midAt (lo hi pv : Z) : Prop :=
  lo + 1 <= pv <= hi - 1 /\ hi - lo + 1 <= 3 * (pv - lo + 1) /\ hi - lo + 1 <= 3 * (hi - pv + 1).

Definition cPivotC : Z := 70.

Lemma swp_lswPivot_calm lo hi c v D :
  c = 2 \/ c = 3 /\ 21 <= wq -> 0 <= lo -> 4 * c + 2 <= hi - lo + 1 -> hi < cap -> 11 * hi + 29 < 20 * wq -> still lo hi v ->
  swp D (Z.to_nat cPivotC) (reg (rng lo hi)) none
    (fun pv _ v' => v' = v /\ lo + c <= pv <= hi - c /\ midAt lo hi pv)
    (lswPivot lt cap meanI lo hi (2 * c + 1)) v.
Proof.
  intros Hc H0 Hl Hcap Hb Hs. unfold lswPivot.
  rewrite uw_small by lia.
  destruct (minMaxSample_ok (Wd := Wd) (hi + 1 - lo) (2 * c + 1) ltac:(lia) ltac:(lia) ltac:(lia)) as (f & st & E & Hf & Hst & Hlast).
  rewrite E. replace (2 * c + 1 - 1) with (2 * c) in * by lia.
  assert (Hmid := minMaxSample_mid (hi + 1 - lo) (2 * c + 1) f st _ c c
    ltac:(destruct Hc as [Hc|[Hc _]]; subst c; lia) ltac:(lia) ltac:(lia) E).
  set (first := lo + f). set (m := 2 * c + 1). rewrite (lswSamples_loop (Wd := Wd)).
  assert (Hst' : st <= hi - lo) by nia.
  assert (Ewr : first + m * st < 2 * wq).
  { unfold first, m. destruct (minMaxSample_past (Wd := Wd) (hi + 1 - lo) (2 * c + 1) f st _ ltac:(lia) ltac:(lia) ltac:(lia) E) as [P5 P7].
    destruct Hc as [Hc|[Hc Hc2]]; subst c; [specialize (P5 eq_refl)|specialize (P7 eq_refl)]; lia. }
  apply swp_bind. eapply swp_apply.
  { apply (swp_insLoop_calm first st m lo hi v D); [lia|unfold m; lia|lia|unfold first; lia| |lia|exact Ewr|unfold first, m; lia|exact Hs].
    lia. }
  { lia. } { unfold cInsL, cPivotC, m. destruct Hc as [Hc|[Hc _]]; subst c; lia. } { auto. } { auto. }
  cbv beta. intros _ n1 w -> _ Hn1.
  assert (Ecost : (4 <= n1)%nat).
  { unfold cInsL, cPivotC, m in *. destruct Hc as [Hc|[Hc _]]; subst c; lia. }
  assert (Hcs : c <= c * st) by nia.
  assert (Em : meanI first (lo + (f + 2 * c * st)) = first + c * st).
  { assert (2 * meanI first (lo + (f + 2 * c * st)) = first + (lo + (f + 2 * c * st))).
    { apply HM; [unfold first; lia|unfold first; nia|unfold first in *; lia|].
      replace (first + (lo + (f + 2 * c * st))) with (2 * (first + c * st)) by (unfold first; lia).
      apply Z.even_spec. exists (first + c * st). reflexivity. }
    unfold first in *. lia. }
  rewrite Em.
  set (last := lo + (f + 2 * c * st)) in *.
  assert (Hla : first < last <= hi) by (unfold first, last; lia).
  assert (R : forall i, lo <= i <= hi -> reg (rng lo hi) i) by (intros; unfold reg; simpl; lia).
  assert (E1 : lt (v first) (v lo) = false).
  { destruct (Z.eq_dec first lo) as [->|]; [apply Hirr|]. apply Hs; unfold first in *; lia. }
  assert (E2 : lt (v hi) (v last) = false).
  { destruct (Z.eq_dec hi last) as [->|]; [apply Hirr|]. apply Hs; unfold first, last in *; lia. }
  apply swp_bind, swp_idle; [lia|unfold first in *; lia..|apply R; unfold first in *; lia|apply R; lia|exact E1|].
  apply swp_bind, swp_idle; [lia|unfold first in *; lia..|apply R; lia|apply R; unfold first in *; lia|exact E2|].
  apply swp_ret. split; [reflexivity|].
  assert (lo + f + c * st <= hi - c) by nia.
  split; [unfold first; lia|]. unfold midAt, first. lia.
Qed.

Lemma swp_lswPivotShort_calm lo hi v D :
  0 <= lo -> 6 <= hi - lo + 1 -> hi < cap -> 11 * hi + 29 < 20 * wq -> still lo hi v ->
  swp D 12 (reg (rng lo hi)) none (fun pv _ v' => v' = v /\ midAt lo hi pv) (lswPivotShort lt cap lo hi) v.
Proof.
  intros H0 Hl Hcap Hb Hs. unfold lswPivotShort. rewrite uw_small by lia.
  destruct (minMaxSample_ok (Wd := Wd) (hi + 1 - lo) 3 ltac:(lia) ltac:(lia) ltac:(lia)) as (f & st & E & Hf & Hst & Hlast).
  rewrite E.
  assert (Hmid := minMaxSample_mid (Wd := Wd) (hi + 1 - lo) 3 f st _ 1 1 ltac:(left; repeat split; reflexivity) ltac:(lia) ltac:(lia) E).
  set (first := lo + f). set (pv := first + st). set (last := pv + st).
  assert (R : forall i, lo <= i <= hi -> reg (rng lo hi) i) by (intros; unfold reg; simpl; lia).
  assert (B : lo <= first /\ first < pv /\ pv < last /\ last <= hi) by (unfold last, pv, first; lia).
  assert (Bm : midAt lo hi pv) by (unfold midAt, pv, first in *; lia).
  clearbody first. clearbody pv. clearbody last.
  assert (E1 : lt (v first) (v lo) = false).
  { destruct (Z.eq_dec first lo) as [->|]; [apply Hirr|]. apply Hs; lia. }
  assert (E2 : lt (v hi) (v last) = false).
  { destruct (Z.eq_dec hi last) as [->|]; [apply Hirr|]. apply Hs; lia. }
  apply swp_bind, swp_idle; [lia|lia..|apply R; lia|apply R; lia|apply Hs; lia|].
  apply swp_bind, swp_idle; [lia|lia..|apply R; lia|apply R; lia|apply Hs; lia|].
  apply swp_bind, swp_ret.
  apply swp_bind, swp_idle; [lia|lia..|apply R; lia|apply R; lia|exact E1|].
  apply swp_bind, swp_idle; [lia|lia..|apply R; lia|apply R; lia|exact E2|].
  apply swp_ret. split; [reflexivity|exact Bm].
Qed.

(** ** Partitioning *)

Section One.
Variables a b p : Z.
Hypothesis Ha : 0 <= a.
Hypothesis Hab : a <= b + 1.
Hypothesis Hb : b < cap.
Hypothesis Hp : 0 <= p < cap.
Variable v : Z -> T.
Hypothesis Hlo : forall i, a <= i <= b -> i <= p -> lt (v p) (v i) = false.
Hypothesis Hhi : forall i, a <= i <= b -> p <= i -> lt (v i) (v p) = false.

(** Where partOne cuts: at the middle, or between the middle and the pivot. *)
Definition cutAt (k : Z) : Prop :=
  a <= k <= b + 1 /\ (a + b <= 2 * k \/ p < k) /\ (2 * k <= a + b + 2 \/ k <= p).

Definition oneInvC (st : label) (w : Z -> T) : Prop :=
  w = v /\
  match st with
  | LStart l h | LLast l h => a <= l /\ h <= b /\ l - 1 <= h /\ l + h = a + b /\
      match st with LLast _ _ => h <= l | _ => True end
  | LScan l h => a <= l < h /\ h <= b /\ h < p /\ a + b < 2 * h
  | LSecond l h => a <= l < h /\ h <= b /\ p < l /\ 2 * l < a + b
  | LNext l h => a <= l < h /\ h <= b /\ l + h = a + b
  | LSwap _ _ => False
  end.

Lemma swp_lswPartOne_calm D :
  swp D (Z.to_nat (cPartL (b - a + 1))) (rdOne a b p) none (fun k _ v' => v' = v /\ cutAt k)
    (lswPartOne lt cap a p b) v.
Proof.
  unfold lswPartOne.
  apply (swp_loop_var body D 6 (rdOne a b p) none oneInvC oneMu2 (fun k w => w = v /\ cutAt k)).
  2:{ split; [reflexivity|]. repeat split; lia. }
  2:{ cbn [oneMu2]. lia. }
  2:{ cbn [oneMu2]. unfold cPartL. lia. }
  assert (Rp : rdOne a b p p) by (right; reflexivity).
  assert (Rin : forall i, a <= i <= b -> rdOne a b p i) by (intros; left; lia).
  intros st w [-> Hst]. destruct st as [l h|l h|l h|l h|l h|l h].
  - (* second *)
    destruct Hst as (Hl & Hh & Hpl & Hm). cbv zeta. destruct (Z.leb_spec (h - 1) l) as [C|C].
    + apply swp_ret. split; [reflexivity|]. unfold cutAt. lia.
    + apply swp_bind, swp_idle; [lia|lia|lia|lia|lia|apply Rin; lia|exact Rp|apply Hhi; lia|].
      apply swp_ret. split; [|cbn [oneMu2]; lia]. split; [reflexivity|]. lia.
  - contradiction.
  - destruct Hst as (Hl & Hh & Hs). apply swp_ret. split; [|cbn [oneMu2]; lia]. split; [reflexivity|]. repeat split; lia.
  - (* start *)
    destruct Hst as (Hl & Hh & Hlh & Hs & _). destruct (Z.ltb_spec l h) as [C|C].
    2:{ apply swp_ret. split; [|cbn [oneMu2]; lia]. split; [reflexivity|]. repeat split; lia. }
    apply swp_bind, swp_test; [lia|lia|lia|lia|apply Rin; lia|exact Rp|].
    intros [|] E.
    + assert (h < p). { destruct (Z.lt_ge_cases h p); [assumption|]. rewrite Hhi in E by lia. discriminate. }
      apply swp_ret. split; [|cbn [oneMu2]; lia]. split; [reflexivity|]. repeat split; lia.
    + apply swp_bind, swp_test; [lia|lia|lia|lia|exact Rp|apply Rin; lia|].
      intros [|] E2; apply swp_ret; (split; [|cbn [oneMu2]; lia]); (split; [reflexivity|]).
      * assert (p < l). { destruct (Z.lt_ge_cases p l); [assumption|]. rewrite Hlo in E2 by lia. discriminate. }
        repeat split; lia.
      * repeat split; lia.
  - (* scan *)
    destruct Hst as (Hl & Hh & Hpl & Hm).
    apply swp_bind, swp_idle; [lia|lia|lia|lia|lia|exact Rp|apply Rin; lia|apply Hlo; lia|]. cbv zeta.
    destruct (Z.leb_spec h (l + 1)) as [C|C]; apply swp_ret.
    + split; [reflexivity|]. unfold cutAt. lia.
    + split; [|cbn [oneMu2]; lia]. split; [reflexivity|]. lia.
  - (* last *)
    destruct Hst as (Hl & Hh & Hlh & Hs & C).
    destruct (Z.eqb_spec l h) as [E|E]; [destruct (Z.eqb_spec h p) as [E2|E2]|]; cbn [negb andb].
    + apply swp_ret. split; [reflexivity|]. unfold cutAt. lia.
    + apply swp_bind, swp_test; [lia|lia|lia|lia|apply Rin; lia|exact Rp|].
      intros [|] _; apply swp_ret; (split; [reflexivity|]); unfold cutAt; lia.
    + apply swp_ret. split; [reflexivity|]. unfold cutAt. lia.
Qed.

End One.

Section Two.
Variables a l0 h0 b p : Z.
Hypothesis Ha : 0 <= a.
Hypothesis Hl0 : a <= l0.
Hypothesis Hlh : l0 < p.
Hypothesis Hph : p <= h0.
Hypothesis Hh0 : h0 <= b.
Hypothesis Hb : b < cap.
Variable v : Z -> T.
Hypothesis Hlo : forall i, a <= i <= l0 -> lt (v p) (v i) = false.
Hypothesis Hhi : forall i, h0 <= i <= b -> lt (v i) (v p) = false.

Lemma swp_lswPartTwo_calm D :
  swp D (Z.to_nat (cPartL (b - a + 1))) (rdTwo a l0 h0 b p) none
    (fun r _ v' => v' = v /\ (a <= r <= l0 \/ h0 <= r <= b + 1))
    (lswPartTwo lt cap a l0 p h0 b) v.
Proof.
  unfold lswPartTwo.
  apply (swp_loop_var body D 6 (rdTwo a l0 h0 b p) none
    (fun st w => w = v /\ match st with
       | LStart l h | LNext l h => a <= l <= l0 /\ h0 <= h <= b
       | _ => False end) (twoMu2 a b) (fun r w => w = v /\ (a <= r <= l0 \/ h0 <= r <= b + 1))).
  2:{ split; [reflexivity|]. lia. }
  2:{ cbn [twoMu2]. lia. }
  2:{ cbn [twoMu2]. unfold cPartL. lia. }
  assert (Rp : rdTwo a l0 h0 b p p) by (right; reflexivity).
  assert (RL : forall i, a <= i <= l0 -> rdTwo a l0 h0 b p i) by (intros; left; unfold outer; lia).
  assert (RH : forall i, h0 <= i <= b -> rdTwo a l0 h0 b p i) by (intros; left; unfold outer; lia).
  intros st w [-> Hst]. destruct st as [l h|l h|l h|l h|l h|l h]; try contradiction.
  - cbv zeta. destruct (Z.ltb_spec (l - 1) a) as [C|C].
    { apply swp_ret. split; [reflexivity|]. lia. }
    destruct (Z.ltb_spec b (h + 1)) as [C2|C2].
    { apply swp_ret. split; [reflexivity|]. lia. }
    apply swp_ret. split; [|cbn [twoMu2]; lia]. split; [reflexivity|]. lia.
  - apply swp_bind, swp_idle; [lia|lia|lia|lia|lia|apply RH; lia|exact Rp|apply Hhi; lia|].
    apply swp_bind, swp_idle; [lia|lia|lia|lia|lia|exact Rp|apply RL; lia|apply Hlo; lia|].
    apply swp_ret. split; [|cbn [twoMu2]; lia]. split; [reflexivity|]. lia.
Qed.

Lemma swp_lswGapLow_calm D r k : a - 1 <= r <= l0 -> a <= k - 1 <= b ->
  swp D (Z.to_nat (cGapL (b - a + 1))) (reg (rng a b)) none (fun k' _ v' => v' = v /\ k' = k)
    (lswGapLow lt cap a r k p) v.
Proof.
  intros Hr Hk. unfold lswGapLow.
  apply (swp_loop_var body D 6 (reg (rng a b)) none
    (fun '(r, k', p') w => w = v /\ k' = k /\ p' = p /\ a - 1 <= r <= l0) (fun '(r, _, _) => r - a + 1)
    (fun k' w => w = v /\ k' = k)).
  2:{ split; [reflexivity|]. split; [reflexivity|]. split; [reflexivity|lia]. }
  2:{ lia. }
  2:{ unfold cGapL. lia. }
  intros [[r' k'] p'] w (-> & -> & -> & Hr').
  destruct (Z.leb_spec a r') as [C|C]; [|apply swp_ret; split; reflexivity].
  apply swp_bind, swp_idle; [lia|lia|lia|lia|lia|unfold reg; simpl; lia|unfold reg; simpl; lia|apply Hlo; lia|].
  apply swp_ret. split; [|lia]. split; [reflexivity|]. split; [reflexivity|]. split; [reflexivity|lia].
Qed.

Lemma swp_lswGapHigh_calm D r k : h0 <= r <= b + 1 -> a <= k <= b ->
  swp D (Z.to_nat (cGapL (b - a + 1))) (reg (rng a b)) none (fun k' _ v' => v' = v /\ k' = k)
    (lswGapHigh lt cap b r k p) v.
Proof.
  intros Hr Hk. unfold lswGapHigh.
  apply (swp_loop_var body D 6 (reg (rng a b)) none
    (fun '(r, k', p') w => w = v /\ k' = k /\ p' = p /\ h0 <= r <= b + 1) (fun '(r, _, _) => b + 1 - r)
    (fun k' w => w = v /\ k' = k)).
  2:{ split; [reflexivity|]. split; [reflexivity|]. split; [reflexivity|lia]. }
  2:{ lia. }
  2:{ unfold cGapL. lia. }
  intros [[r' k'] p'] w (-> & -> & -> & Hr').
  destruct (Z.leb_spec r' b) as [C|C]; [|apply swp_ret; split; reflexivity].
  apply swp_bind, swp_idle; [lia|lia|lia|lia|lia|unfold reg; simpl; lia|unfold reg; simpl; lia|apply Hhi; lia|].
  apply swp_ret. split; [|lia]. split; [reflexivity|]. split; [reflexivity|]. split; [reflexivity|lia].
Qed.

End Two.

Lemma still_lo lo hi v p i : still lo hi v -> lo <= i -> i <= p -> p <= hi -> lt (v p) (v i) = false.
Proof. intros H H1 H2 H3. destruct (Z.eq_dec i p) as [->|]; [apply Hirr|apply H; lia]. Qed.

Lemma swp_lswPartOne_mid lo hi pv v D :
  0 <= lo -> 4 <= hi - lo + 1 -> hi < cap -> still lo hi v -> midAt lo hi pv ->
  swp D (Z.to_nat (cPartL (hi - lo + 1))) (reg (rng lo hi)) none
    (fun l _ v' => v' = v /\ cutMid true (rng lo hi) (l - lo))
    (lswPartOne lt cap (lo + 1) pv (hi - 1)) v.
Proof.
  intros H0 Hl Hcap Hs (Hm1 & Hm2 & Hm3).
  eapply swp_apply;
    [apply (swp_lswPartOne_calm (lo + 1) (hi - 1) pv); [lia|lia|lia|lia| |]
    |apply Nat.le_refl|unfold cPartL in *; lia
    |unfold rdOne, reg; simpl; intros; lia|auto|].
  { intros i Hi Hip. apply (still_lo lo hi); auto; lia. }
  { intros i Hi Hip. apply (still_lo lo hi); auto; lia. }
  cbv beta. intros l n2 v2 [-> (K1 & K2 & K3)] _ _. split; [reflexivity|].
  split; cbn [rng len]; [lia|]. intros _. lia.
Qed.

(** ** short and long *)

Notation lshortBody := (lshortBody lt cap tn).
Notation llongBody := (llongBody lt cap tn meanI).

Lemma swp_lswShort_calm_gen : forall N lo hi v,
  hi - lo + 1 <= N -> maxIns < hi - lo + 1 -> 0 <= lo -> hi < cap -> 11 * hi + 29 < 20 * wq -> still lo hi v ->
  swp (Z.to_nat (Z.log2 (hi - lo + 1))) (Z.to_nat (cC (hi - lo + 1))) (reg (rng lo hi)) none
    (fun _ _ v' => v' = v) (Loop (inl (lo, hi)) lshortBody) v.
Proof.
  intro N. induction (Z.lt_wf 0 N) as [N _ IH]. intros lo hi v HN Hs H0 Hcap Hb Hc.
  set (s := rng lo hi). assert (Es : len s = hi - lo + 1) by reflexivity.
  rewrite <- Es in *.
  assert (Cm := cCalm_mid (len s) true ltac:(lia)).
  apply swp_loop; [lia|]. unfold LswLong.lshortBody at 1.
  apply swp_bind. eapply swp_apply;
    [apply (swp_lswPivotShort_calm lo hi v 0); [lia|lia|lia|lia|exact Hc]|lia|lia|auto|auto|].
  cbv beta. intros pv n1 vp [-> Hpiv] _ Hn1.
  apply swp_bind. eapply swp_apply;
    [apply (swp_lswPartOne_mid lo hi pv v 0); [lia|lia|lia|exact Hc|exact Hpiv]|lia|unfold cPartL; lia|auto|auto|].
  cbv beta. intros l n2 v1 [-> Hcut] _ Hn2. fold s in Hcut.
  assert (Hk : 1 <= l - lo <= len s - 1) by apply Hcut.
  destruct (lswSplit_ok lo hi l ltac:(lia)) as (l' & h' & lo' & hi' & E & Hsp & B1 & B2 & B3 & B4 & B5 & B6).
  rewrite E. clear E. set (k := l - lo) in *. fold s in Hsp.
  set (aq := rng l' h') in *. set (ar := rng lo' hi') in *.
  assert (Eq : len aq = h' - l' + 1) by reflexivity. assert (Ea : len ar = hi' - lo' + 1) by reflexivity.
  destruct (isSplit_reg s k aq ar Hk Hsp) as (Raq & Rar & Rdis & Haq & Har & Hsum & Hle & Hoff).
  assert (Hcq := still_sub lt lo hi l' h' v B1 B3 Hc). assert (Hca := still_sub lt lo hi lo' hi' v B4 B6 Hc).
  assert (Lq := log2_half (len aq) (len s) Haq ltac:(lia)).
  assert (La : Z.log2 (len ar) <= Z.log2 (len s)) by (apply Z.log2_le_mono; lia).
  assert (Lq0 := Z.log2_nonneg (len aq)). assert (La0 := Z.log2_nonneg (len ar)).
  assert (Cj : cC (len aq) + cC (len ar) + 100 * len s <= cC (len s)).
  { apply cCalm_join; try lia. destruct Hcut as [_ H2]. destruct Hsp as [H3 H4]. specialize (H2 eq_refl). lia. }
  assert (Cq0 := cCalm_low true (len aq) Haq). assert (Ca0 := cCalm_low true (len ar) Har).
  assert (Hn2' : cC (len aq) + cC (len ar) + 40 * len s <= Z.of_nat n2) by (unfold cPartL in *; lia).
  destruct (Z.leb_spec maxIns (h' - l')) as [Cc|Cc].
  - replace (Z.to_nat (Z.log2 (len s))) with (S (Z.to_nat (Z.log2 (len s) - 1))) by lia.
    apply swp_call; [lia|]. cbn [lswBody]. rewrite lshort_unfold.
    eapply swp_apply; [apply (IH (len aq)) with (lo := l') (hi := h'); [lia|lia|lia|lia|lia|lia|exact Hcq]
                      |rewrite <- Eq; lia|rewrite <- Eq; lia|exact Raq|auto|].
    cbv beta. intros _ n3 v2 -> _ Hn3. rewrite <- Eq in Hn3. split; [lia|]. apply swp_ret.
    eapply swp_apply; [apply (IH (len ar)) with (lo := lo') (hi := hi'); [lia|lia|lia|lia|lia|lia|exact Hca]
                      |rewrite <- Ea; lia|rewrite <- Ea; lia|exact Rar|auto|].
    cbv beta. auto.
  - apply swp_ret. apply swp_loop; [lia|]. cbn [LswLong.lshortBody].
    apply swp_bind. eapply swp_apply;
      [apply (swp_lswIns_calm l' h' v 0); [lia|lia|lia|lia|exact Hcq]|lia|rewrite <- Eq; unfold cInsL; lia|exact Raq|auto|].
    cbv beta. intros _ n3 v2 -> _ Hn3. rewrite <- Eq in Hn3. unfold cInsL in Hn3.
    destruct (Z.leb_spec maxIns (hi' - lo')) as [Cr|Cr].
    + apply swp_ret. eapply swp_apply; [apply (IH (len ar)) with (lo := lo') (hi := hi'); [lia|lia|lia|lia|lia|lia|exact Hca]
                      |rewrite <- Ea; lia|rewrite <- Ea; lia|exact Rar|auto|].
      cbv beta. auto.
    + change (off ar) with lo' in Hoff. change (off aq) with l' in Hoff.
      destruct (Z.eqb_spec lo' l') as [Eo|_]; [exfalso; exact (Hoff Eo)|]. cbn [negb].
      apply swp_ret. apply swp_loop; [lia|]. cbn [LswLong.lshortBody].
      apply swp_bind. eapply swp_apply;
        [apply (swp_lswIns_calm lo' hi' v 0); [lia|lia|lia|lia|exact Hca]|lia|rewrite <- Ea; unfold cInsL; lia|exact Rar|auto|].
      cbv beta. intros _ n4 v3 -> _ Hn4.
      destruct (Z.leb_spec maxIns (hi' - lo')); [lia|].
      rewrite Z.eqb_refl. cbn [negb]. apply swp_ret. reflexivity.
Qed.

Lemma swp_lswShort_calm lo hi v :
  maxIns < hi - lo + 1 -> 0 <= lo -> hi < cap -> 11 * hi + 29 < 20 * wq -> still lo hi v ->
  swp (Z.to_nat (Z.log2 (hi - lo + 1))) (Z.to_nat (cC (hi - lo + 1))) (reg (rng lo hi)) none
    (fun _ _ v' => v' = v) (lswShort lt cap tn lo hi) v.
Proof. intros. rewrite lshort_unfold. eapply swp_lswShort_calm_gen; [apply Z.le_refl|assumption..]. Qed.

Lemma swp_lswSmall_calm lo hi v :
  0 <= lo -> lo <= hi -> hi < cap -> 11 * hi + 29 < 20 * wq -> still lo hi v ->
  swp (Z.to_nat (Z.log2 (hi - lo + 1) + 1)) (Z.to_nat (cC (hi - lo + 1) + 2)) (reg (rng lo hi)) none
    (fun _ _ v' => v' = v)
    (if maxIns <=? hi - lo then Call (LShort lo hi) (Ret tt) else lswInsertion lt cap lo hi) v.
Proof.
  intros H1 H2 H3 H4 Hc. set (m := hi - lo + 1) in *.
  assert (H0 := Z.log2_nonneg m). assert (C0 := cCalm_low true m ltac:(lia)).
  destruct (Z.leb_spec maxIns (hi - lo)) as [C|C].
  - replace (Z.to_nat (Z.log2 m + 1)) with (S (Z.to_nat (Z.log2 m))) by lia.
    apply swp_call; [lia|]. cbn [lswBody].
    eapply swp_apply; [apply (swp_lswShort_calm lo hi v); [lia|lia|lia|lia|exact Hc]|fold m; lia|fold m; lia|auto|auto|].
    cbv beta. fold m. intros _ n v' -> _ Hm. split; [lia|]. apply swp_ret. reflexivity.
  - eapply swp_apply; [apply (swp_lswIns_calm lo hi v 0); assumption|lia|fold m; unfold cInsL; lia|auto|auto|].
    cbv beta. auto.
Qed.

Lemma swp_lswPivotLong_calm lo hi v D :
  0 <= lo -> 18 <= hi - lo + 1 -> hi < cap -> 11 * hi + 29 < 20 * wq -> still lo hi v ->
  swp D (Z.to_nat cPivotC) (reg (rng lo hi)) none
    (fun pv _ v' => v' = v /\ lo + 2 <= pv <= hi - 2 /\ midAt lo hi pv)
    (lswPivot lt cap meanI lo hi (nsLong - 1)) v.
Proof. intros. apply (swp_lswPivot_calm lo hi 2); auto; lia. Qed.

Lemma swp_lswLong_calm_gen : forall N lo hi v,
  hi - lo + 1 <= N -> maxRec < hi - lo + 1 -> 0 <= lo -> hi < cap -> 11 * hi + 29 < 20 * wq -> still lo hi v ->
  swp (Z.to_nat (Z.log2 (hi - lo + 1) + 1)) (Z.to_nat (cC (hi - lo + 1))) (reg (rng lo hi)) none
    (fun _ _ v' => v' = v) (Loop (lo, hi) (llongBody false)) v.
Proof.
  intro N. induction (Z.lt_wf 0 N) as [N _ IH]. intros lo hi v HN Hs H0 Hcap Hb Hc.
  set (s := rng lo hi). assert (Es : len s = hi - lo + 1) by reflexivity.
  rewrite <- Es in *.
  assert (Cm := cCalm_mid (len s) true ltac:(lia)).
  apply swp_loop; [lia|]. unfold LswLong.llongBody at 1.
  apply swp_bind. eapply swp_apply;
    [apply (swp_lswPivotLong_calm lo hi v 0); [lia|lia|lia|lia|exact Hc]|lia|unfold cPivotC; lia|auto|auto|].
  cbv beta. intros pv n1 vp (-> & _ & Hpiv) _ Hn1.
  apply swp_bind. eapply swp_apply;
    [apply (swp_lswPartOne_mid lo hi pv v 0); [lia|lia|lia|exact Hc|exact Hpiv]|lia|unfold cPivotC, cPartL in *; lia|auto|auto|].
  cbv beta. intros l n2 v1 [-> Hcut] _ Hn2. fold s in Hcut.
  assert (Hk : 1 <= l - lo <= len s - 1) by apply Hcut.
  destruct (lswSplit_ok lo hi l ltac:(lia)) as (l' & h' & lo' & hi' & E & Hsp & B1 & B2 & B3 & B4 & B5 & B6).
  rewrite E. clear E. set (k := l - lo) in *. fold s in Hsp.
  set (aq := rng l' h') in *. set (ar := rng lo' hi') in *.
  assert (Eq : len aq = h' - l' + 1) by reflexivity. assert (Ea : len ar = hi' - lo' + 1) by reflexivity.
  destruct (isSplit_reg s k aq ar Hk Hsp) as (Raq & Rar & Rdis & Haq & Har & Hsum & Hle & Hoff).
  assert (Hcq := still_sub lt lo hi l' h' v B1 B3 Hc). assert (Hca := still_sub lt lo hi lo' hi' v B4 B6 Hc).
  assert (Lq := log2_half (len aq) (len s) Haq ltac:(lia)).
  assert (La : Z.log2 (len ar) <= Z.log2 (len s)) by (apply Z.log2_le_mono; lia).
  assert (Lq0 := Z.log2_nonneg (len aq)). assert (La0 := Z.log2_nonneg (len ar)).
  assert (Cj : cC (len aq) + cC (len ar) + 100 * len s <= cC (len s)).
  { apply cCalm_join; try lia. destruct Hcut as [_ H2]. destruct Hsp as [H3 H4]. specialize (H2 eq_refl). lia. }
  assert (Cq0 := cCalm_low true (len aq) Haq). assert (Ca0 := cCalm_low true (len ar) Har).
  assert (Hn2' : cC (len aq) + cC (len ar) + 15 <= Z.of_nat n2) by (unfold cPivotC, cPartL in *; lia).
  assert (Hgo : forall n, cC (len ar) + 1 <= Z.of_nat n -> maxRec < len ar ->
    swp (Z.to_nat (Z.log2 (len s) + 1)) n (reg s) none
      (fun _ _ v' => v' = v) (Loop (lo', hi') (llongBody false)) v).
  { intros n Hn Hbig.
    eapply swp_apply; [apply (IH (len ar)) with (lo := lo') (hi := hi'); [lia|lia|lia|lia|lia|lia|exact Hca]
                      |rewrite <- Ea; lia|rewrite <- Ea; lia|exact Rar|auto|].
    cbv beta. auto. }
  destruct (Z.ltb_spec (h' - l') maxRec) as [Cc|Cc].
  - apply swp_bind. eapply swp_apply;
      [apply (swp_lswSmall_calm l' h' v); [lia|lia|lia|lia|exact Hcq]
      |rewrite <- Eq; lia|rewrite <- Eq; lia|exact Raq|auto|].
    cbv beta. rewrite <- Eq. intros _ n3 v2 -> _ Hn3.
    destruct (Z.leb_spec maxRec (hi' - lo')) as [Cr|Cr].
    + apply swp_ret. apply Hgo; lia.
    + replace (Z.to_nat (Z.log2 (len s) + 1)) with (S (Z.to_nat (Z.log2 (len s)))) by lia.
      apply swp_call; [lia|]. cbn [lswBody].
      eapply swp_apply; [apply (swp_lswShort_calm lo' hi' v); [lia|lia|lia|lia|exact Hca]
                        |rewrite <- Ea; lia|rewrite <- Ea; lia|exact Rar|auto|].
      cbv beta. rewrite <- Ea. intros _ n4 v3 -> _ Hn4. split; [lia|]. apply swp_ret. reflexivity.
  - apply swp_bind, swp_ret.
    replace (Z.to_nat (Z.log2 (len s) + 1)) with (S (Z.to_nat (Z.log2 (len s)))) by lia.
    apply swp_call; [lia|]. cbn [lswBody]. rewrite llong_unfold.
    eapply swp_apply; [apply (IH (len aq)) with (lo := l') (hi := h'); [lia|lia|lia|lia|lia|lia|exact Hcq]
                      |rewrite <- Eq; lia|rewrite <- Eq; lia|exact Raq|auto|].
    cbv beta. rewrite <- Eq. intros _ n3 v2 -> _ Hn3. split; [lia|]. apply swp_ret.
    replace (S (Z.to_nat (Z.log2 (len s)))) with (Z.to_nat (Z.log2 (len s) + 1)) by lia.
    apply Hgo; lia.
Qed.

Lemma swp_lswLong_calm lo hi v :
  maxRec < hi - lo + 1 -> 0 <= lo -> hi < cap -> 11 * hi + 29 < 20 * wq -> still lo hi v ->
  swp (Z.to_nat (Z.log2 (hi - lo + 1) + 1)) (Z.to_nat (cC (hi - lo + 1))) (reg (rng lo hi)) none
    (fun _ _ v' => v' = v) (lswLong lt cap tn meanI lo hi false) v.
Proof. intros. rewrite llong_unfold. eapply swp_lswLong_calm_gen; [apply Z.le_refl|assumption..]. Qed.

(** ** With syncVar *)

Variable Dm : nat.
Notation G := (lswCalm tn).
Notation W := (wpT (Gr := G) body Dm).
Notation wp := (wp (Gr := G) body W).

Lemma wp_lswLong_calm_gen : forall N lo hi g a,
  hi - lo + 1 <= N -> maxRec < hi - lo + 1 -> 0 <= lo -> hi < cap -> 11 * hi + 29 < 20 * wq -> still lo hi (val g) ->
  md g = MAct a -> idle a ->
  (forall i, reg (rng lo hi) i -> dom g i) -> (forall i, reg (rng lo hi) i -> rd g i) ->
  (Z.to_nat (Z.log2 (hi - lo + 1) + 2) <= Dm)%nat ->
  wp (Z.to_nat (Z.log2 (hi - lo + 1) + 1))
    (fun _ _ g' => delegated (reg (rng lo hi)) any g a g')
    (Z.to_nat (cC (hi - lo + 1))) (Loop (lo, hi) (llongBody true)) g.
Proof.
  intro N. induction (Z.lt_wf 0 N) as [N _ IH]. intros lo hi g a HN Hs H0 Hcap Hb Hc Hmd Hidle Hdom Hrd HDm.
  set (s := rng lo hi) in *. assert (Es : len s = hi - lo + 1) by reflexivity.
  rewrite <- Es in *.
  assert (Hlive : live g) by (unfold live; rewrite Hmd; exact I).
  assert (Cm := cCalm_mid (len s) true ltac:(lia)).
  apply wp_loop; [lia|]. unfold LswLong.llongBody at 1.
  apply wp_bind. eapply wp_rapply;
    [exact Hlive|apply (swp_lswPivotLong_calm lo hi (val g) 0); [lia|lia|lia|lia|exact Hc]
    |lia|unfold cPivotC; lia|exact Hrd|].
  cbv beta. intros pv n1 vp (-> & _ & Hpiv) _ Hn1.
  apply wp_bind. eapply wp_rapply;
    [exact Hlive|apply (swp_lswPartOne_mid lo hi pv (val g) 0); [lia|lia|lia|exact Hc|exact Hpiv]|lia
    |unfold cPivotC, cPartL in *; lia|exact Hrd|].
  cbv beta. cbn [setval dom rd val md seen]. intros l n2 v2 [-> Hcut] _ Hn2. fold s in Hcut.
  assert (Hk : 1 <= l - lo <= len s - 1) by apply Hcut.
  destruct (lswSplit_ok lo hi l ltac:(lia)) as (l' & h' & lo' & hi' & E & Hsp & B1 & B2 & B3 & B4 & B5 & B6).
  rewrite E. clear E. set (k := l - lo) in *. fold s in Hsp.
  set (aq := rng l' h') in *. set (ar := rng lo' hi') in *.
  assert (Eq : len aq = h' - l' + 1) by reflexivity. assert (Ea : len ar = hi' - lo' + 1) by reflexivity.
  destruct (isSplit_reg s k aq ar Hk Hsp) as (Raq & Rar & Rdis & Haq & Har & Hsum & Hle & Hoff).
  assert (Hcq := still_sub lt lo hi l' h' _ B1 B3 Hc). assert (Hca := still_sub lt lo hi lo' hi' _ B4 B6 Hc).
  assert (Lq := log2_half (len aq) (len s) Haq ltac:(lia)).
  assert (La : Z.log2 (len ar) <= Z.log2 (len s)) by (apply Z.log2_le_mono; lia).
  assert (Lq0 := Z.log2_nonneg (len aq)). assert (La0 := Z.log2_nonneg (len ar)).
  assert (Cj : cC (len aq) + cC (len ar) + 100 * len s <= cC (len s)).
  { apply cCalm_join; try lia. destruct Hcut as [_ H2]. destruct Hsp as [H3 H4]. specialize (H2 eq_refl). lia. }
  assert (Cq0 := cCalm_low true (len aq) Haq). assert (Ca0 := cCalm_low true (len ar) Har).
  assert (Hn3' : cC (len aq) + cC (len ar) + 15 <= Z.of_nat n2) by (unfold cPivotC, cPartL in *; lia).
  clear Hn1 Hn2 n1. rename n2 into n. set (v1 := val g) in *.
  sv.
  assert (Hoff1 : reg aq (off aq)) by (unfold reg; lia).
  assert (Hoff2 : reg ar (off ar)) by (unfold reg; lia).
  assert (Rdis' : forall i, reg ar i -> ~ reg aq i) by (intros i H1 H2; exact (Rdis i H2 H1)).
  (* continuing with the longer range after the shorter one *)
  assert (Hgo : forall n g1 a1 g2, sameact a a1 -> (forall i, dom g1 i <-> dom g i) -> (forall i, rd g1 i <-> rd g i) ->
    val g1 = v1 -> delegated (reg aq) any g1 a1 g2 ->
    cC (len ar) + 1 <= Z.of_nat n -> maxRec < len ar ->
    wp (Z.to_nat (Z.log2 (len s) + 1))
      (fun _ _ g' => delegated (reg s) any g a g') n (Loop (lo', hi') (llongBody true)) g2).
  { intros m g1 a1 g2 Hsa Ed Er Ev Hdel Hm Hbig.
    assert (Hdel0 := Hdel).
    destruct Hdel as (O1 & a2 & Em & Eam & Hi & HO & HD & HR & HV & HP).
    assert (E12 : forall i, reg ar i -> val g2 i = v1 i).
    { intros i Hi2. rewrite HV, Ev; [reflexivity|]. auto. }
    eapply wp_apply; [apply (IH (len ar)) with (lo := lo') (hi := hi') (a := a2); [lia|lia|lia|lia|lia|lia| |exact Em|exact Hi| | |]
                      |rewrite <- Ea; lia|rewrite <- Ea; lia|].
    { eapply still_ext; [|exact Hca]. intros i Hi2. apply E12. unfold reg, ar; simpl. lia. }
    { fold ar. intros i Hr. apply HD. rewrite Ed. split; [auto|]. intro Ho. apply HO in Ho. exact (Rdis i Ho Hr). }
    { fold ar. intros i Hr. apply HR. rewrite Er. split; [auto|]. intro Ho. apply HO in Ho. exact (Rdis i Ho Hr). }
    { rewrite <- Ea. lia. }
    cbv beta. fold ar. intros _ n4 g3 Hdel3 Hn4.
    eapply (delegated_seq (reg s) (reg aq) (reg ar)) with (S1 := any) (S2 := any);
      [exact Hsa|exact Ed|exact Er|intros i Hi2; rewrite Ev; reflexivity
      |exact Raq|exact Rar|exact Rdis|intros; exact I|intros; exact I|exact Hdel0|].
    intros a3 Ha3. rewrite Em in Ha3. injection Ha3 as <-. exact Hdel3. }
  destruct (Z.ltb_spec (h' - l') maxRec) as [Cc|Cc].
  - apply wp_bind. eapply wp_rapply;
      [exact Hlive|apply (swp_lswSmall_calm l' h' v1); [lia|lia|lia|lia|exact Hcq]
      |rewrite <- Eq; lia|rewrite <- Eq; lia|fold aq; intros; apply Hrd; auto|].
    cbv beta. cbn [setval dom rd val md seen]. rewrite <- Eq. intros _ n3 v2 -> _ Hn3.
    sv.
    assert (Hdel : delegated (reg aq) any (setval g v1) a (setval (setval g v1) v1)).
    { apply delegated_local; [exact Hmd|exact Hidle|reflexivity|intros; exact I]. }
    change (setval (setval g v1) v1) with (setval g v1) in Hdel.
    destruct (Z.leb_spec maxRec (hi' - lo')) as [Cr|Cr].
    + apply wp_ret. apply (Hgo n3 (setval g v1) a); [split; reflexivity|reflexivity|reflexivity|reflexivity
        |exact Hdel|lia|lia].
    + replace (Z.to_nat (Z.log2 (len s) + 1)) with (S (Z.to_nat (Z.log2 (len s)))) by lia.
      apply wp_call; [lia|exact Hlive|]. cbn [lswBody].
      eapply wp_rapply; [exact Hlive|apply (swp_lswShort_calm lo' hi' v1); [lia|lia|lia|lia|exact Hca]
                        |rewrite <- Ea; lia|rewrite <- Ea; lia|fold ar; intros; apply Hrd; auto|].
      cbv beta. cbn [setval dom rd val md seen]. rewrite <- Ea. intros _ n4 v3 -> _ Hn4. split; [lia|]. apply wp_ret.
      sv. apply (delegated_local (reg s)); [exact Hmd|exact Hidle|reflexivity|intros; exact I].
  - apply wp_bind. unfold lswGorFull. apply wp_loadmax; [lia|exact Hlive|]. intros mg Hmg.
    eapply wp_loadgor; [lia|exact Hmd|apply Hidle|apply Hidle|]. intros ng.
    cbn [setval setseen setmd dom rd val md seen]. apply wp_ret.
    set (a1 := settok a (ng <? mg)).
    assert (Hsa1 : sameact a a1) by (split; reflexivity).
    assert (Hidle1 : idle a1) by exact Hidle.
    destruct (Z.leb_spec mg ng) as [Cf|Cf].
    + replace (Z.to_nat (Z.log2 (len s) + 1)) with (S (Z.to_nat (Z.log2 (len s)))) by lia.
      apply wp_call; [lia|exact I|]. cbn [lswBody]. rewrite llong_unfold.
      eapply wp_apply; [apply (IH (len aq)) with (lo := l') (hi := h') (a := a1); [lia|lia|lia|lia|lia|lia|exact Hcq|reflexivity|exact Hidle1| | |]
                        |rewrite <- Eq; lia|rewrite <- Eq; lia|].
      { fold aq. intros i Hr. apply Hdom. auto. }
      { fold aq. intros i Hr. apply Hrd. auto. }
      { rewrite <- Eq. lia. }
      cbv beta. cbn [setval setseen setmd dom rd val md seen]. rewrite <- Eq. fold aq. intros _ n4 g2 Hdel Hn4. split; [lia|]. apply wp_ret.
      replace (S (Z.to_nat (Z.log2 (len s)))) with (Z.to_nat (Z.log2 (len s) + 1)) by lia.
      eapply Hgo; [exact Hsa1| | | |exact Hdel|lia|lia]; [reflexivity|reflexivity|reflexivity].
    + eapply wp_addinc; [lia|reflexivity|apply Hidle1| |apply Hidle1| |].
      { cbn. destruct (Z.ltb_spec ng mg); [reflexivity|lia]. }
      { apply (ltwice_of tn HIns HRec aq ar); [lia|lia|intros i Hi; apply Hdom; auto|intros i Hi; apply Hdom; auto|exact Rdis]. }
      intros z. eapply wp_forkcredit with (d1 := reg ar) (P1 := any)
        (P2 := fun u => any u -> a_P a1 u)
        (n1 := Z.to_nat (cC (len ar) + 4)) (n2 := Z.to_nat (cC (len aq)));
        [reflexivity|reflexivity|apply Hidle1| | | | |lia| | ].
      { intros i Hr. apply Hdom. auto. }
      { apply (lmany_of tn HIns HRec ar); [lia|auto]. }
      { apply (lmany_of tn HIns HRec aq); [lia|]. intros i Hi. split; [apply Hdom; auto|]. intro Hi'. exact (Rdis i Hi Hi'). }
      { cbn. auto. }
      * (* the new goroutine *)
        constructor. cbn [lswBody]. unfold lswGLong.
        apply wp_calln; [lia|lia|exact I|]. cbn [lswBody]. rewrite llong_unfold.
        eapply wp_apply; [apply (IH (len ar)) with (lo := lo') (hi := hi') (a := Act None any false false None);
          [lia|lia|lia|lia|lia|lia|exact Hca|reflexivity|split; reflexivity| | |]|rewrite <- Ea; lia|rewrite <- Ea; lia|].
        { auto. } { auto. } { rewrite <- Ea. lia. }
        cbv beta. cbn [setval setseen setmd dom rd val md seen]. rewrite <- Ea. fold ar.
        intros _ n4 g2 (O1 & a2 & Em & Eam & Hi & HO & HD & HR & HV & HP) Hn4. split; [lia|].
        cbn in Eam, HD, HR, HV, HP.
        eapply wp_adddec; [lia|exact Em|apply Hi|apply Hi| |].
        { intros w Hw. apply HP; [|intros; exact I].
          intros i Hr Ho. apply Hw. apply HR. auto. }
        intros z' Hz'. unfold signed_off. rewrite Eam. destruct (Z.eqb_spec z' 0).
        -- apply wp_sendlast; [lia|reflexivity|]. apply wp_ret. reflexivity.
        -- apply wp_ret. reflexivity.
      * (* going on with the shorter range *)
        apply wp_ret. cbn [setval setseen setmd dom rd val md seen].
        set (a2 := forked (setcredit a1) (fun u => any u -> a_P a1 u)).
        eapply wp_apply; [apply (IH (len aq)) with (lo := l') (hi := h') (a := a2); [lia|lia|lia|lia|lia|lia|exact Hcq|reflexivity|split; [reflexivity|apply Hidle1]| | |]
                        |rewrite <- Eq; lia|rewrite <- Eq; lia|].
        { cbn. fold aq. intros i Hr. split; auto. }
        { cbn. fold aq. intros i Hr. split; auto. }
        { rewrite <- Eq. lia. }
        cbn [val]. fold aq. intros _ n4 g3 Hdel Hn4.
        eapply (delegated_fork (reg s) (reg aq) (reg ar)) with (S1 := any) (S2 := any)
          (g1 := Gst (dom g) (rd g) v1 (MAct (setcredit a1)) mg) (a1 := setcredit a1);
          [split; reflexivity|reflexivity|reflexivity|reflexivity|exact Raq|exact Rar|exact Rdis
          |apply reg_dec|intros; exact I|exact Hdel].
Qed.

Lemma wp_lswLong_calm lo hi g a :
  maxRec < hi - lo + 1 -> 0 <= lo -> hi < cap -> 11 * hi + 29 < 20 * wq -> still lo hi (val g) ->
  md g = MAct a -> idle a ->
  (forall i, reg (rng lo hi) i -> dom g i) -> (forall i, reg (rng lo hi) i -> rd g i) ->
  (Z.to_nat (Z.log2 (hi - lo + 1) + 2) <= Dm)%nat ->
  wp (Z.to_nat (Z.log2 (hi - lo + 1) + 1))
    (fun _ _ g' => delegated (reg (rng lo hi)) any g a g')
    (Z.to_nat (cC (hi - lo + 1))) (lswLong lt cap tn meanI lo hi true) g.
Proof. intros. rewrite llong_unfold. eapply wp_lswLong_calm_gen; [apply Z.le_refl|eassumption..]. Qed.

Lemma wpT_lswGLong_calm lo hi v :
  maxRec < hi - lo + 1 -> 0 <= lo -> hi < cap -> 11 * hi + 29 < 20 * wq -> still lo hi v ->
  (Z.to_nat (Z.log2 (hi - lo + 1) + 2) <= Dm)%nat ->
  W (Z.to_nat (cC (hi - lo + 1) + 4)) (body (LGLong lo hi))
    (Gst (reg (rng lo hi)) (reg (rng lo hi)) v (MAct (Act None any false false None)) 0).
Proof.
  intros Hs H0 Hcap Hb Hc HDm. set (m := hi - lo + 1) in *. set (s := rng lo hi).
  assert (C1 := cCalm_pos true m ltac:(lia)). assert (L0 := Z.log2_nonneg m).
  constructor. cbn [lswBody]. unfold lswGLong.
  apply wp_calln; [lia|lia|exact I|]. cbn [lswBody].
  eapply wp_apply; [apply (wp_lswLong_calm lo hi) with (a := Act None any false false None);
    [exact Hs|exact H0|exact Hcap|exact Hb|exact Hc|reflexivity|split; reflexivity|auto|auto|exact HDm]|fold m; lia|fold m; lia|].
  cbv beta. cbn [setval setseen setmd dom rd val md seen]. fold m.
  intros _ n4 g2 (O1 & a2 & Em & Ea & Hi & HO & HD & HR & HV & HP) Hn4. split; [lia|].
  cbn in Ea, HD, HR, HV, HP.
  eapply wp_adddec; [lia|exact Em|apply Hi|apply Hi| |].
  { intros w Hw. apply HP; [|intros; exact I]. intros i Hr Ho. apply Hw. apply HR. auto. }
  intros z' Hz'. unfold signed_off. rewrite Ea. destruct (Z.eqb_spec z' 0).
  - apply wp_sendlast; [lia|reflexivity|]. apply wp_ret. reflexivity.
  - apply wp_ret. reflexivity.
Qed.

(** ** partCon *)

Lemma wp_lswPartCon_calm lo hi g a D : 21 <= wq ->
  16 <= hi - lo + 1 -> twice (Gr := G) (dom g) -> 0 <= lo -> hi < cap -> 11 * hi + 29 < 20 * wq -> still lo hi (val g) ->
  md g = MAct a -> a_main a <> None -> a_tok a = true -> idle a ->
  (forall i, reg (rng lo hi) i -> dom g i) -> (forall i, reg (rng lo hi) i -> rd g i) ->
  wp D (fun l _ g' => exists a', md g' = MAct a' /\ a_main a' = a_main a /\ a_P a' = a_P a /\
          a_tok a' = true /\ idle a' /\
          (forall i, dom g' i <-> dom g i) /\ (forall i, rd g' i <-> rd g i) /\
          (forall i, reg (rng lo hi) i -> val g' i = val g i) /\
          cutMid true (rng lo hi) (l - lo))
    (Z.to_nat (cPC2 (hi - lo + 1))) (lswPartCon lt cap meanI lo hi) g.
Proof.
  intros Hwq Hs Htw H0 Hcap Hb Hc Hmd Hmain Htok Hidle Hdom Hrd.
  assert (Hlive : live g) by (unfold live; rewrite Hmd; exact I).
  set (s := rng lo hi) in *.
  assert (Rs : forall i, reg s i <-> lo <= i <= hi) by (intro i; unfold reg, s, rng; simpl; lia).
  unfold lswPartCon. apply wp_bind. change (nsConc - 1) with (2 * 3 + 1). eapply wp_rapply;
    [exact Hlive|apply (swp_lswPivot_calm lo hi 3 (val g) 0); [right; lia|lia|lia|lia|lia|exact Hc]
    |lia|unfold cPivotC, cPC2; lia|exact Hrd|].
  cbv beta. intros pv n1 v1 (-> & Hpv & Hmp) _ Hn1. destruct Hmp as (_ & Hm2 & Hm3).
  set (v0 := val g) in *.
  cbv zeta. set (l := meanI (lo + 1) pv). set (h := meanI pv (hi - 1)).
  assert (Hl : lo + 1 <= l < pv) by (unfold l; apply HmeanI; lia).
  assert (Hh : pv <= h < hi - 1) by (unfold h; apply HmeanI; lia).
  assert (Nl : lo + 1 + pv - 1 <= 2 * l <= lo + 1 + pv + 1) by (unfold l; apply Hnear; lia).
  assert (Nh : pv + (hi - 1) - 1 <= 2 * h <= pv + (hi - 1) + 1) by (unfold h; apply Hnear; lia).
  clearbody l h.
  set (R2 := rdOne (l + 1) (h - 1) pv). set (D2 := wrOne (l + 1) (h - 1) pv).
  assert (R2s : forall i, R2 i -> reg s i) by (intros i; rewrite Rs; unfold R2, rdOne; lia).
  assert (D2R2 : forall i, D2 i -> R2 i) by (intros i; unfold R2, D2, rdOne, wrOne; lia).
  assert (R2dec : forall i, R2 i \/ ~ R2 i) by (intro i; unfold R2, rdOne; lia).
  eapply wp_forkpart with (dj := R2) (d2 := D2) (r2 := R2)
    (post := fun k w => (forall i, R2 i -> w i = v0 i) /\ cutAt (l + 1) (h - 1) pv k)
    (n1 := Z.to_nat (cPartL (hi - lo + 1) + 1)) (n2 := Z.to_nat (cPartL (hi - lo + 1) + cGapL (hi - lo + 1) + 2));
    [exact Hmd|exact Hmain|apply Hidle|exact Htok|apply Hidle
    |cbn; intros; apply Hdom; auto|exact D2R2|auto| | | | | ].
  { exact Htw. }
  { exact R2dec. }
  { unfold cPartL, cGapL, cPivotC, cPC2 in *. lia. }
  { (* the partner *)
    constructor. cbn [lswBody]. unfold lswGPartOne. apply wp_bind.
    eapply wp_rapply; [exact I|apply (swp_lswPartOne_calm (l + 1) (h - 1) pv); [lia|lia|lia|lia| |]
      |apply Nat.le_refl|unfold cPartL; lia|auto|].
    { cbn [val]. intros i Hi Hip. apply (still_lo lo hi); auto; lia. }
    { cbn [val]. intros i Hi Hip. apply (still_lo lo hi); auto; lia. }
    cbv beta. cbn [setval dom rd val md seen]. intros k n3 v2 [-> Hk] _ Hn3.
    eapply wp_sendpart; [unfold cPartL in *; lia|reflexivity| |apply wp_ret; reflexivity].
    intros w Hw. cbn [j_post]. split; [exact Hw|exact Hk]. }
  (* the caller: outer parts *)
  apply wp_bind. cbn [setval dom rd val md seen].
  eapply wp_rapply;
    [exact I|apply (swp_lswPartTwo_calm (lo + 1) l h (hi - 1) pv); [lia|lia|lia|lia|lia|lia| |]
    |apply Nat.le_refl|unfold cPartL, cGapL; lia| |].
  { cbn [val]. intros i Hi. apply (still_lo lo hi); auto; lia. }
  { cbn [val]. intros i Hi. apply (still_lo lo hi); auto; lia. }
  { cbn. intros i Hi. unfold minus. split; [apply Hrd; rewrite Rs; unfold rdTwo, outer in Hi; lia|].
    unfold D2, wrOne, rdTwo, outer in *. lia. }
  cbv beta. cbn [setval dom rd val md seen]. intros r n3 v3 [-> Htwo] _ Hn3.
  eapply wp_recvjoin; [unfold cPartL, cGapL in *; lia|reflexivity|reflexivity|].
  cbn [setval setjoin dom rd val md seen j_post j_D]. intros km w Hw [Hin (K1 & K2 & K3)].
  assert (Ew : forall i, reg s i -> w i = v0 i).
  { intros i Hi. destruct (R2dec i) as [Hm|Hm]; [apply Hin; exact Hm|]. apply Hw. cbn. split; [apply Hrd; exact Hi|auto]. }
  assert (Hcw : still lo hi w) by (eapply still_ext; [|exact Hc]; intros i Hi; apply Ew; rewrite Rs; exact Hi).
  set (a1 := setjoin a None).
  set (g3 := Gst (union (minus (dom g) R2) R2) (union (minus (rd g) D2) R2) w
               (MAct a1) (seen g)).
  assert (Hg3d : forall i, dom g3 i <-> dom g i).
  { intro i. cbn. unfold union, minus. destruct (R2dec i) as [Hm|Hm]; [|tauto].
    generalize (Hdom i (R2s i Hm)). tauto. }
  assert (Hg3r : forall i, rd g3 i <-> rd g i).
  { intro i. cbn. unfold union, minus. destruct (R2dec i) as [Hm|Hm].
    - generalize (Hrd i (R2s i Hm)). tauto.
    - split; [tauto|]. intro Hi. left. split; [exact Hi|]. auto. }
  assert (Hn4 : (Z.to_nat (cGapL (hi - 1 - (lo + 1) + 1)) <= n3 - 1)%nat) by (unfold cPartL, cGapL in *; lia).
  assert (Hcut : cutMid true s (km - lo)).
  { split; unfold s; cbn [rng len]; [lia|]. intros _. lia. }
  assert (Fin : exists a', md (setval g3 w) = MAct a' /\ a_main a' = a_main a /\ a_P a' = a_P a /\
          a_tok a' = true /\ idle a' /\
          (forall i, dom (setval g3 w) i <-> dom g i) /\ (forall i, rd (setval g3 w) i <-> rd g i) /\
          (forall i, reg s i -> val (setval g3 w) i = v0 i) /\
          cutMid true s (km - lo)).
  { exists a1. split; [reflexivity|]. split; [reflexivity|]. split; [reflexivity|].
    split; [exact Htok|]. split; [split; [apply Hidle|reflexivity]|]. split; [exact Hg3d|].
    split; [exact Hg3r|]. split; [exact Ew|exact Hcut]. }
  assert (Rgap : forall i, reg (rng (lo + 1) (hi - 1)) i -> reg s i) by (intros i; rewrite Rs; unfold reg; simpl; lia).
  destruct Htwo as [Hr|Hr].
  - destruct (Z.ltb_spec r pv) as [_|]; [|lia].
    eapply wp_rapply with (g := g3);
      [exact I|apply (swp_lswGapLow_calm (lo + 1) l h (hi - 1) pv); try lia
      |apply Nat.le_0_l|exact Hn4|intros i Hi; apply Hg3r; auto|].
    { intros i Hi. apply (still_lo lo hi); auto; lia. }
    cbv beta. intros k m v' [-> ->] _ _. exact Fin.
  - destruct (Z.ltb_spec r pv) as [|_]; [lia|].
    eapply wp_rapply with (g := g3);
      [exact I|apply (swp_lswGapHigh_calm (lo + 1) l h (hi - 1) pv); try lia
      |apply Nat.le_0_l|exact Hn4|intros i Hi; apply Hg3r; auto|].
    { intros i Hi. apply (still_lo lo hi); auto; lia. }
    cbv beta. intros k m v' [-> ->] _ _. exact Fin.
Qed.

(** ** Sort *)

Hypothesis HRec2 : maxRec < wq - 1.
Notation lmainBody := (lmainBody lt cap tn meanI).

Definition LInv (lo hi : Z) (g : gst T) (a : act T) : Prop :=
  md g = MAct a /\ a_main a = Some any /\ idle a /\
  (forall i, reg (rng lo hi) i -> dom g i) /\ (forall i, dom g i -> rd g i) /\
  still lo hi (val g) /\ maxRec < hi - lo + 1 /\ forall w, a_P a w.

Definition LPost lo hi (p : Z * Z) (m : nat) (g' : gst T) : Prop :=
  lo <= fst p /\ snd p <= hi /\ (exists a', LInv (fst p) (snd p) g' a') /\
  cC (snd p - fst p + 1) + 8 <= Z.of_nat m.

Lemma wp_lswMainLoop_calm : forall N lo hi g a,
  hi - lo + 1 <= N -> 2 * (maxRec + 1) <= hi - lo + 1 -> 0 <= lo -> hi < cap -> 11 * hi + 29 < 20 * wq ->
  LInv lo hi g a -> a_tok a = true ->
  (Z.to_nat (Z.log2 (hi - lo + 1) + 2) <= Dm)%nat ->
  wp (Z.to_nat (Z.log2 (hi - lo + 1) + 2))
    (LPost lo hi)
    (Z.to_nat (cC (hi - lo + 1) + 8)) (Loop (lo, hi) lmainBody) g.
Proof.
  intro N. induction (Z.lt_wf 0 N) as [N _ IH]. intros lo hi g a HN Hs H0 Hcap Hb Hinv Htok HDm.
  set (s := rng lo hi) in *. assert (Es : len s = hi - lo + 1) by reflexivity.
  destruct Hinv as (Hmd & Hmain & Hidle & Hdom & Hdr & Hc & Hlen & HP).
  rewrite <- Es in *.
  assert (Hrd : forall i, reg s i -> rd g i) by (intros; apply Hdr; auto).
  assert (Hlive : live g) by (unfold live; rewrite Hmd; exact I).
  assert (Cm := cCalm_mid (len s) true ltac:(lia)).
  apply wp_loop; [lia|]. unfold LswSort.lmainBody at 1.
  apply wp_bind. eapply wp_apply;
    [apply (wp_lswPartCon_calm lo hi g a 0); [lia|lia|apply (ltwice_one tn HIns HRec s); [lia|exact Hdom]|lia|lia|lia|exact Hc|exact Hmd|congruence|exact Htok|exact Hidle|exact Hdom|exact Hrd]
    |lia|rewrite <- Es; unfold cPC2; lia|].
  cbv beta. rewrite <- Es. fold s. intros l n2 g1 (a1 & Hmd1 & Hmain1 & HP1 & Htok1 & Hidle1 & Hd1 & Hr1 & Hv1 & Hcut) Hn1.
  assert (Hlive1 : live g1) by (unfold live; rewrite Hmd1; exact I).
  assert (Hk : 1 <= l - lo <= len s - 1) by apply Hcut.
  destruct (lswSplit_ok lo hi l ltac:(lia)) as (l' & h' & lo' & hi' & E & Hsp & B1 & B2 & B3 & B4 & B5 & B6).
  rewrite E. clear E. set (k := l - lo) in *. fold s in Hsp.
  set (aq := rng l' h') in *. set (ar := rng lo' hi') in *.
  assert (Eq : len aq = h' - l' + 1) by reflexivity. assert (Ea : len ar = hi' - lo' + 1) by reflexivity.
  destruct (isSplit_reg s k aq ar Hk Hsp) as (Raq & Rar & Rdis & Haq & Har & Hsum & Hle & Hoff).
  assert (Hc1 : still lo hi (val g1)).
  { eapply still_ext; [|exact Hc]. intros i Hi. apply Hv1. unfold reg, s; simpl; lia. }
  set (v1 := val g1) in *.
  assert (Hcq := still_sub lt lo hi l' h' _ B1 B3 Hc1). assert (Hca := still_sub lt lo hi lo' hi' _ B4 B6 Hc1).
  assert (Lq := log2_half (len aq) (len s) Haq ltac:(lia)).
  assert (La : Z.log2 (len ar) <= Z.log2 (len s)) by (apply Z.log2_le_mono; lia).
  assert (Lq0 := Z.log2_nonneg (len aq)). assert (La0 := Z.log2_nonneg (len ar)).
  assert (Cj : cC (len aq) + cC (len ar) + 100 * len s <= cC (len s)).
  { apply cCalm_join; try lia. destruct Hcut as [_ H2]. destruct Hsp as [H3 H4]. specialize (H2 eq_refl). lia. }
  assert (Cq0 := cCalm_low true (len aq) Haq). assert (Ca0 := cCalm_low true (len ar) Har).
  assert (Hn2' : cC (len aq) + cC (len ar) + 30 <= Z.of_nat n2) by (unfold cPC2 in *; lia).
  clear Hn1. rename n2 into n.
  assert (Hoff1 : reg aq (off aq)) by (unfold reg; lia).
  assert (Hoff2 : reg ar (off ar)) by (unfold reg; lia).
  assert (Rdis' : forall i, reg ar i -> ~ reg aq i) by (intros i Hx1 Hx2; exact (Rdis i Hx2 Hx1)).
  assert (Hbig : maxRec < len ar) by lia.
  (* what follows once the shorter range is dealt with *)
  assert (Hgo : forall n g2 a2, LInv lo' hi' g2 a2 -> cC (len ar) + 12 <= Z.of_nat n ->
    wp (Z.to_nat (Z.log2 (len s) + 2))
      (fun r m g' => match r with
         | inl s' => wp (Z.to_nat (Z.log2 (len s) + 2))
             (LPost lo hi) m (Loop s' lmainBody) g'
         | inr p => LPost lo hi p m g'
         end) n
      (if hi' - lo' <=? lswConc tn then Ret (inr (lo', hi'))
       else Bind lswGorFull (fun full : bool => if full then Ret (inr (lo', hi')) else Ret (inl (lo', hi')))) g2).
  { intros m g2 a2 Hi2 Hm.
    rewrite (lswConc_plain (Wd := Wd)) by assumption. destruct (Z.leb_spec (hi' - lo') (2 * maxRec)) as [Cs|Cs].
    { apply wp_ret. split; [cbn [fst snd]; lia|]. split; [cbn [fst snd]; lia|]. split; [exists a2; exact Hi2|cbn [fst snd]; rewrite <- Ea; lia]. }
    assert (Hi2' := Hi2). destruct Hi2' as (Hmd2 & Hmain2 & Hidle2 & Hdom2 & Hdr2 & Hok2 & Hlen2 & HP2).
    apply wp_bind. unfold lswGorFull. apply wp_loadmax; [lia|unfold live; rewrite Hmd2; exact I|]. intros mg Hmg.
    eapply wp_loadgor; [lia|exact Hmd2|apply Hidle2|apply Hidle2|]. intros ng.
    set (a3 := settok a2 (ng <? seen (setseen g2 mg))).
    set (g3 := setmd (setseen g2 mg) (MAct a3)).
    assert (Hi3 : LInv lo' hi' g3 a3).
    { split; [reflexivity|]. split; [exact Hmain2|]. split; [exact Hidle2|]. split; [exact Hdom2|].
      split; [exact Hdr2|]. split; [exact Hok2|]. split; [exact Hlen2|exact HP2]. }
    apply wp_ret. destruct (Z.leb_spec mg ng) as [Cf|Cf].
    - apply wp_ret. split; [cbn [fst snd]; lia|]. split; [cbn [fst snd]; lia|]. split; [exists a3; exact Hi3|cbn [fst snd]; rewrite <- Ea; lia].
    - apply wp_ret. eapply wp_more;
        [apply (IH (len ar)) with (lo := lo') (hi := hi') (a := a3); [lia|lia|lia|lia|lia|lia|exact Hi3| |rewrite <- Ea; lia]
        |rewrite <- Ea; lia|rewrite <- Ea; lia|].
      + cbn. destruct (Z.ltb_spec ng mg); [reflexivity|lia].
      + cbv beta. intros [lo2 hi2] m' g' Hm' (Hl1 & Hl2 & Ha & Hcc). cbn [fst snd] in *. split; [cbn; lia|]. split; [cbn; lia|]. split; [exact Ha|cbn [fst snd]; lia]. }
  apply wp_bind. destruct (Z.leb_spec maxRec (h' - l')) as [Cc|Cc].
  - (* a goroutine for the shorter range *)
    eapply wp_addinc; [lia|exact Hmd1|apply Hidle1|exact Htok1|apply Hidle1| |].
    { apply (ltwice_of tn HIns HRec aq ar); [lia|lia|intros i Hi; apply Hd1, Hdom; auto|intros i Hi; apply Hd1, Hdom; auto|exact Rdis]. }
    intros z. eapply wp_forkcredit with (d1 := reg aq) (P1 := any)
        (P2 := fun u => any u -> a_P a1 u)
        (n1 := Z.to_nat (cC (len aq) + 4)) (n2 := Z.to_nat (cC (len ar) + 12));
        [reflexivity|reflexivity|apply Hidle1| | | | |lia| | ].
    { intros i Hr. apply Hd1, Hdom. auto. }
    { apply (lmany_of tn HIns HRec aq); [lia|auto]. }
    { apply (lmany_of tn HIns HRec ar); [lia|]. intros i Hi. split; [apply Hd1, Hdom; auto|]. intro Hi'. exact (Rdis i Hi' Hi). }
    { cbn. auto. }
    + rewrite Eq. apply wpT_lswGLong_calm; [lia|lia|lia|lia|exact Hcq|rewrite <- Eq; lia].
    + cbn [setmd dom rd val md seen]. apply wp_ret.
      apply (Hgo _ _ (forked (setcredit a1) (fun u => any u -> a_P a1 u))); [|lia].
      split; [reflexivity|]. split; [exact (eq_trans Hmain1 Hmain)|]. split; [split; [reflexivity|apply Hidle1]|].
      cbn [dom rd val]. fold ar. split.
      { intros i Hr. split; [apply Hd1, Hdom; auto|auto]. }
      split; [intros i [Hx1 Hx2]; split; [apply Hr1, Hdr, Hd1; exact Hx1|exact Hx2]|].
      split; [exact Hca|]. split; [lia|].
      cbn [forked a_P]. intros w _. rewrite HP1. apply HP.
  - eapply wp_rapply; [exact Hlive1|apply (swp_lswSmall_calm l' h' v1); [lia|lia|lia|lia|exact Hcq]
      |rewrite <- Eq; lia|rewrite <- Eq; lia|fold aq; intros; apply Hr1, Hrd; auto|].
    cbv beta. rewrite <- Eq. fold aq. intros _ n3 v2 -> _ Hn3.
    apply (Hgo _ _ a1); [|lia].
    split; [exact Hmd1|]. split; [exact (eq_trans Hmain1 Hmain)|]. split; [exact Hidle1|].
    cbn [setval dom rd val]. fold ar. split; [intros i Hr; apply Hd1, Hdom; auto|].
    split; [intros i Hi; apply Hr1, Hdr, Hd1; exact Hi|].
    split; [exact Hca|]. split; [lia|]. intros w. rewrite HP1. apply HP.
Qed.

Lemma wp_lswSortConc_calm (X : cells) n v (sn : Z) : (forall i, reg (rng 0 n) i -> X i) ->
  2 * (maxRec + 1) <= n + 1 -> n < cap -> 11 * n + 29 < 20 * wq -> still 0 n v -> 1 < sn ->
  (Z.to_nat (Z.log2 (n + 1) + 2) <= Dm)%nat ->
  wp (Z.to_nat (Z.log2 (n + 1) + 2)) (QM (fun _ _ => True))
    (Z.to_nat (cC (n + 1) + 9)) (lswSortConc lt cap tn meanI n) (Gst X X v MInit sn).
Proof.
  intros HX Hs Hcap Hb Hc Hsn HDm. rewrite (lswSortConc_unfold (Wd := Wd)). set (s := rng 0 n) in *.
  assert (C1 := cCalm_low true (n + 1) ltac:(lia)). assert (L0 := Z.log2_nonneg (n + 1)).
  apply (wp_makesv body W _ _ _ _ _ any); [lia|reflexivity|exact Hsn| |].
  { apply (lmany_of tn HIns HRec s); [unfold s, rng; simpl; lia|exact HX]. }
  set (a0 := Act (Some any) any false true None).
  assert (E1 : n - 0 + 1 = n + 1) by lia.
  apply wp_bind. eapply wp_more; [apply (wp_lswMainLoop_calm (n + 1) 0 n) with (a := a0);
    [lia|lia|lia|exact Hcap|exact Hb| |reflexivity|rewrite E1; exact HDm]|rewrite E1; lia|rewrite E1; lia|].
  { split; [reflexivity|]. split; [reflexivity|]. split; [split; reflexivity|].
    split; [auto|]. split; [auto|]. split; [exact Hc|]. split; [lia|]. intros w. exact I. }
  cbv beta. intros [lo hi] m g1 Hm (Hl1 & Hl2 & (a1 & Hinv) & Hcc). cbn [fst snd] in *.
  destruct Hinv as (Hmd & Hmain & Hidle & Hdom & Hdr & Hc1 & Hlen & HP).
  assert (C2 := cCalm_low true (hi - lo + 1) ltac:(lia)). assert (L2 := Z.log2_nonneg (hi - lo + 1)).
  assert (L3 : Z.log2 (hi - lo + 1) <= Z.log2 (n + 1)) by (apply Z.log2_le_mono; lia).
  apply wp_calln; [lia|lia|unfold live; rewrite Hmd; exact I|]. cbn [lswBody].
  eapply wp_apply; [apply (wp_lswLong_calm lo hi g1 a1); [lia|lia|lia|lia|exact Hc1|exact Hmd|exact Hidle|exact Hdom|auto|lia]
    |lia|lia|].
  cbv beta. intros _ m2 g2 (O & a2 & Em & Ea & Hi & HO & HD & HR & HV & HP2) Hm2. split; [lia|].
  eapply wp_adddec; [lia|exact Em|apply Hi|apply Hi| |].
  - intros w Hw. apply HP2.
    + intros i Hr Ho. apply Hw. apply HR. auto.
    + intros u Hu Hsu. apply HP.
  - intros z Hz. unfold signed_off. rewrite Ea, Hmain. destruct (Z.eqb_spec z 0).
    + apply wp_ret. cbn. auto.
    + eapply wp_recvwait; [lia|reflexivity|]. intros _. apply wp_ret. cbn. auto.
Qed.

Lemma wp_lswSort_calm (X : cells) N v sn0 md0 : (forall i, reg (Slice 0 N) i -> X i) ->
  0 <= N -> N <= cap -> 11 * N + 18 < 20 * wq -> still 0 (N - 1) v ->
  md0 = MInit \/ (md0 = MSeq /\ N < 2 * (maxRec + 1)) ->
  (Z.to_nat (Z.log2 N + 2) <= Dm)%nat ->
  wp (Z.to_nat (Z.log2 N + 2)) (QM (fun _ _ => True))
    (Z.to_nat (cC N + 12)) (lswSort lt cap tn meanI N) (Gst X X v md0 sn0).
Proof.
  intros HX H0 Hcap Hb Hc Hmd HDm. unfold lswSort. rewrite iw_small by lia. cbv zeta.
  set (n := N - 1) in *. assert (En : n + 1 = N) by (unfold n; lia).
  set (s := Slice 0 N) in *.
  assert (Er : rng 0 n = s) by (unfold rng, s; f_equal; lia).
  assert (En2 : n - 0 + 1 = N) by lia.
  assert (C1 := cCalm_pos true N H0). assert (L0 := Z.log2_nonneg N).
  assert (Hseq : forall sn m, (Z.to_nat (cC N + 8) <= m)%nat -> wp (Z.to_nat (Z.log2 N + 2)) (QM (fun _ _ => True))
    m (if maxRec <=? n then Call (LLong 0 n false) (Ret tt)
       else if maxIns <=? n then Call (LShort 0 n) (Ret tt)
       else if 0 <? n then lswInsertion lt cap 0 n else Ret tt)
      (Gst X X v md0 sn)).
  { intros sn m Hm. eapply wp_rapply with (n1 := Z.to_nat (cC N + 8)) (R1 := reg s)
      (Post := fun _ w => w = v) (D1 := Z.to_nat (Z.log2 N + 2)); [unfold live; cbn [md]; destruct Hmd as [->|[-> _]]; exact I| |lia|exact Hm|exact HX|].
    - cbn [val]. destruct (Z.leb_spec maxRec n) as [C|C].
      + replace (Z.to_nat (Z.log2 N + 2)) with (S (Z.to_nat (Z.log2 N + 1))) by lia.
        apply swp_call; [lia|]. cbn [lswBody].
        eapply swp_apply; [apply (swp_lswLong_calm 0 n v); [lia|lia|lia|lia|exact Hc]
          |rewrite En2; lia|rewrite En2; lia|rewrite Er; auto|auto|].
        cbv beta. rewrite En2. intros _ k v' -> _ Hk. split; [lia|]. apply swp_ret. reflexivity.
      + destruct (Z.ltb_spec 0 n) as [C3|C3].
        * assert (G := swp_lswSmall_calm 0 n v ltac:(lia) ltac:(lia) ltac:(lia) ltac:(lia) Hc).
          rewrite Z.sub_0_r in G.
          eapply swp_apply; [exact G|rewrite En; lia|rewrite En; lia|rewrite Er; auto|auto|].
          cbv beta. auto.
        * destruct (Z.leb_spec maxIns n); [lia|]. apply swp_ret. reflexivity.
    - unfold QM. cbn [md setval]. intros _ k v' _ _ _. destruct Hmd as [->|[-> _]]; auto. }
  apply wp_bind. rewrite (lswConc_plain (Wd := Wd)) by assumption. destruct (Z.leb_spec n (2 * maxRec)) as [C|C].
  - apply wp_ret. apply Hseq. lia.
  - destruct Hmd as [->|[_ Hmd]]; [|lia].
    apply wp_loadmax; [lia|exact I|]. intros mg Hmg. apply wp_ret. cbn [setseen dom rd val md seen].
    destruct (Z.leb_spec mg 1) as [Cm|Cm].
    + apply Hseq. lia.
    + eapply wp_more; [apply (wp_lswSortConc_calm X n v mg); [rewrite Er; exact HX|lia|lia|lia|exact Hc|exact Cm|rewrite En; exact HDm]
        |rewrite En; lia|rewrite En; lia|].
      intros [] m g' _ Hq. exact Hq.
Qed.

End Calm.
