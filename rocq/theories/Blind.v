(** * Sort of sortyLsw.go with a Lesswap function that answers anything

    Termination, index ranges and the protocol of the goroutines do not depend on the
    answers of Lesswap: proved here for the erased program ([Erase.v]), in which every
    answer is chosen by the environment. *)

From Coq Require Import List ZArith Lia Bool.
From Verif Require Import Lang SeqLogic ConcLogic Base Scalar Typed SeqOps ScalarFacts TypedPart
  TypedPivot TypedShort ConcSort TypedLong TypedSort Spec Lsw LswSeq LswPart LswLong LswSort Erase.
Import ListNotations.
Open Scope Z_scope.

Local Arguments Z.mul : simpl never.
Local Arguments Z.add : simpl never.
Local Arguments Z.sub : simpl never.
Local Arguments Z.pow : simpl never.

Section Blind.
Context {Wd : word}.
Context {T : Type}.
Variable lt : T -> T -> bool.         (* no assumption *)
Variables cap top : Z.                (* size of the collection; number of elements to sort *)
Hypothesis Htop : top <= cap.
Variable tn : tuning.
Variable meanI : Z -> Z -> Z.
Hypothesis HmeanI : meanOk meanI.
Hypothesis HM : meanEven meanI.

Notation maxIns := (maxLenInsFC tn).
Notation maxRec := (maxLenRecFC tn).
Hypothesis HIns : 9 <= maxIns.
Hypothesis HRec : 2 * maxIns < maxRec.
Hypothesis HRec2 : maxRec < wq - 1.

Variable f : Z -> T.
Definition within (i : Z) : bool := (0 <=? i) && (i <? top).

Notation body := (lswBody lt cap tn meanI).
Notation er := (erase f within).
Definition bbody (p : lproc) : cmd lproc unit unit := er (body p).

Ltac ub := match goal with |- context [bbody ?p] => change (bbody p) with (er (body p)) end.

Variable Dm : nat.
Notation G := (lswGrain tn).
Notation W := (wpT (Gr := G) bbody Dm).
Notation wp := (wp (Gr := G) bbody W).

(** ** Code of one goroutine *)

Definition sq (D : nat) {A} (Q : A -> nat -> Prop) (n : nat) (c : cmd lproc T A) : Prop :=
  forall g, live g -> wp D (fun a m g' => Q a m /\ exists x, g' = setseen g x) n (er c) g.

Lemma sq_more D1 D {A} (Q1 Q : A -> nat -> Prop) n1 n c : sq D1 Q1 n1 c -> (D1 <= D)%nat -> (n1 <= n)%nat ->
  (forall a m, (m <= n1)%nat -> Q1 a m -> Q a (m + (n - n1))%nat) -> sq D Q n c.
Proof.
  intros H HD Hn HQ g Hg. eapply wp_more; [exact (H g Hg)|exact HD|exact Hn|].
  cbv beta. intros a m g' Hm [H1 H2]. auto.
Qed.

Lemma sq_apply D1 D {A} (Post : A -> Prop) (Q : A -> nat -> Prop) n1 n c :
  sq D1 (fun a _ => Post a) n1 c -> (D1 <= D)%nat -> (n1 <= n)%nat ->
  (forall a m, Post a -> (n <= m + n1)%nat -> Q a m) -> sq D Q n c.
Proof. intros H HD Hn HQ. eapply sq_more; [exact H|exact HD|exact Hn|]. intros a m Hm H1. apply HQ; [exact H1|lia]. Qed.

Lemma sq_ret D {A} (Q : A -> nat -> Prop) n a : Q a n -> sq D Q n (Ret a).
Proof. intros H g Hg. apply wp_ret. split; [exact H|]. exists (seen g). destruct g; reflexivity. Qed.

Lemma sq_bind D {A B} (Q : A -> nat -> Prop) n (c : cmd lproc T B) k :
  sq D (fun b m => sq D Q m (k b)) n c -> sq D Q n (Bind c k).
Proof.
  intros H g Hg. cbn [erase]. apply wp_bind. eapply wp_conseq; [exact (H g Hg)|].
  cbv beta. intros b m g' _ [H1 [x ->]]. eapply wp_conseq; [apply H1; exact Hg|].
  cbv beta. intros a m2 g2 _ [H2 [y ->]]. split; [exact H2|]. exists y. reflexivity.
Qed.

Lemma sq_loop D {A S} (Q : A -> nat -> Prop) n (s : S) bd : (0 < n)%nat ->
  sq D (fun r m => match r with inl s' => sq D Q m (Loop s' bd) | inr a => Q a m end) (n - 1) (bd s) ->
  sq D Q n (Loop s bd).
Proof.
  intros Hn H g Hg. cbn [erase]. apply wp_loop; [exact Hn|]. eapply wp_conseq; [exact (H g Hg)|].
  cbv beta. intros [s'|a] m g' _ [H1 [x ->]]; [|split; [exact H1|exists x; reflexivity]].
  eapply wp_conseq; [apply H1; exact Hg|].
  cbv beta. intros a m2 g2 _ [H2 [y ->]]. split; [exact H2|]. exists y. reflexivity.
Qed.

Lemma sq_loop_var D {A S} (C : nat) (Inv : S -> Prop) (mu : S -> Z) (Q : A -> Prop) (bd : S -> cmd lproc T (S + A)) :
  (forall s, Inv s -> sq D (fun r _ => match r with
     | inl s' => Inv s' /\ 0 <= mu s' < mu s
     | inr a => Q a
     end) C (bd s)) ->
  forall s n, Inv s -> 0 <= mu s -> (Z.of_nat C + 1) * (mu s + 1) <= Z.of_nat n ->
  sq D (fun a _ => Q a) n (Loop s bd).
Proof.
  intros HB s n HI Hmu Hn.
  remember (Z.to_nat (mu s)) as F eqn:Ef.
  revert s n HI Hmu Hn Ef. induction F as [F IH] using lt_wf_ind. intros s n HI Hmu Hn Ef.
  apply sq_loop; [nia|].
  eapply sq_more; [exact (HB s HI)|lia|nia|].
  intros r m Hm Hr. destruct r as [s'|a]; [|exact Hr].
  destruct Hr as [HI' Hlt]. apply (IH (Z.to_nat (mu s'))); auto; try lia.
  nia.
Qed.

Lemma sq_calln D {A} (Q : A -> nat -> Prop) n p (k : cmd lproc T A) : (0 < D)%nat -> (0 < n)%nat ->
  sq (D - 1) (fun _ m => (0 < m)%nat /\ sq D Q (m - 1) k) (n - 1) (body p) -> sq D Q n (Call p k).
Proof.
  intros HD Hn H g Hg. cbn [erase]. apply wp_calln; [exact HD|exact Hn|exact Hg|].
  eapply wp_conseq; [exact (H g Hg)|]. cbv beta. intros _ m g' _ [[H1 H2] [x ->]]. split; [exact H1|].
  eapply wp_conseq; [apply H2; exact Hg|].
  cbv beta. intros a m2 g2 _ [H3 [y ->]]. split; [exact H3|]. exists y. reflexivity.
Qed.

Lemma sq_cget D (Q : T -> nat -> Prop) n i : (0 < n)%nat -> 0 <= i < top ->
  (forall x, Q x (n - 1)%nat) -> sq D Q n (cget cap i).
Proof.
  intros Hn Hi HQ g Hg. unfold cget.
  replace ((0 <=? i) && (i <? cap)) with true by lia. cbn [erase]. unfold within.
  replace ((0 <=? i) && (i <? top)) with true by lia.
  apply wp_loadmax; [exact Hn|exact Hg|]. intros z _. apply wp_ret. split; [apply HQ|]. exists z. reflexivity.
Qed.

Lemma sq_cset D (Q : unit -> nat -> Prop) n i x : (0 < n)%nat -> 0 <= i < top ->
  Q tt (n - 1)%nat -> sq D Q n (cset cap i x).
Proof.
  intros Hn Hi HQ g Hg. unfold cset.
  replace ((0 <=? i) && (i <? cap)) with true by lia. cbn [erase]. unfold within.
  replace ((0 <=? i) && (i <? top)) with true by lia.
  apply wp_loadmax; [exact Hn|exact Hg|]. intros z _. apply wp_ret. split; [exact HQ|]. exists z. reflexivity.
Qed.

(** Lesswap: any answer. *)
Lemma sq_lsw D (Q : bool -> nat -> Prop) n i k r s : (5 < n)%nat ->
  0 <= i < top -> 0 <= k < top -> 0 <= r < top -> 0 <= s < top ->
  (forall b m, (n <= m + 6)%nat -> Q b m) -> sq D Q n (lsw lt cap i k r s).
Proof.
  intros Hn Hi Hk Hr Hs HQ. rewrite lsw_strict by lia.
  apply sq_bind, sq_cget; [lia|lia|]. intro x. apply sq_bind, sq_cget; [lia|lia|]. intro y.
  destruct (lt x y); [|apply sq_ret, HQ; lia].
  destruct (r =? s); [apply sq_ret, HQ; lia|].
  apply sq_bind, sq_cget; [lia|lia|]. intro x'. apply sq_bind, sq_cget; [lia|lia|]. intro y'.
  apply sq_bind, sq_cset; [lia|lia|]. apply sq_bind, sq_cset; [lia|lia|]. apply sq_ret, HQ. lia.
Qed.

Lemma sq_test D (Q : bool -> nat -> Prop) n i k r : (1 < n)%nat ->
  0 <= i < top -> 0 <= k < top -> 0 <= r < top -> (forall b, Q b (n - 2)%nat) -> sq D Q n (lsw lt cap i k r r).
Proof.
  intros Hn Hi Hk Hr HQ. rewrite lsw_strict by lia. rewrite Z.eqb_refl.
  apply sq_bind, sq_cget; [lia|lia|]. intro x. apply sq_bind, sq_cget; [lia|lia|]. intro y.
  destruct (lt x y); apply sq_ret; replace (n - 1 - 1)%nat with (n - 2)%nat by lia; apply HQ.
Qed.

(** ** Insertion sort and pivot selection *)

Lemma sq_insLoop D first step m last : 1 <= step -> 1 <= m -> 0 <= first -> first + (m - 1) * step < top ->
  first + m * step < 2 * wq -> last = first + (m - 1) * step ->
  sq D (fun _ _ => True) (Z.to_nat (cIns2 m)) (insLoop lt cap step first last).
Proof.
  intros Hstep Hm Hf Hc Hwrap ->. unfold insLoop.
  apply (sq_loop_var D (Z.to_nat (7 * m + 14)) (fun h => exists j, h = first + j * step /\ 1 <= j <= m)
    (fun h => Z.max 0 (m - (h - first) / step)) (fun _ => True)).
  2:{ exists 1. lia. }
  2:{ lia. }
  2:{ replace (first + step - first) with (1 * step) by lia. rewrite Z.div_mul by lia. unfold cIns2. nia. }
  intros h (j & -> & Hj).
  destruct (Z.leb_spec (first + j * step) (first + (m - 1) * step)) as [C|C].
  2:{ apply sq_ret. exact I. }
  assert (Hj' : j < m) by nia.
  apply sq_bind. eapply (sq_apply D D (fun _ => True)) with (n1 := Z.to_nat (7 * (j + 2))).
  { apply (sq_loop_var D 6 (fun l => exists i, l = first + i * step /\ 1 <= i <= j)
      (fun l => Z.max 0 ((l - first) / step)) (fun _ => True)).
    - intros l (i & -> & Hi).
      replace (first + i * step - step) with (first + (i - 1) * step) by lia.
      apply sq_bind, sq_lsw; [lia|nia|nia|nia|nia|]. intros [|] n _; [|apply sq_ret; exact I]. cbv zeta.
      destruct (Z.leb_spec (first + (i - 1) * step) first) as [C2|C2]; apply sq_ret; [exact I|].
      split; [exists (i - 1); split; [reflexivity|nia]|].
      replace (first + (i - 1) * step - first) with ((i - 1) * step) by lia.
      replace (first + i * step - first) with (i * step) by lia.
      rewrite !Z.div_mul by lia. lia.
    - exists j. lia.
    - lia.
    - replace (first + j * step - first) with (j * step) by lia. rewrite Z.div_mul by lia. lia. }
  { lia. } { lia. }
  intros _ n1 _ _. apply sq_ret.
  assert (Hr : 0 <= first + (j + 1) * step < 2 * wq) by nia.
  replace (first + j * step + step) with (first + (j + 1) * step) by lia.
  rewrite iw_small by lia.
  split; [exists (j + 1); split; [reflexivity|lia]|].
  replace (first + (j + 1) * step - first) with ((j + 1) * step) by lia.
  replace (first + j * step - first) with (j * step) by lia.
  rewrite !Z.div_mul by lia. lia.
Qed.

Lemma sq_insertion D lo hi : 0 <= lo -> lo <= hi -> hi < top -> 11 * hi + 29 < 20 * wq ->
  sq D (fun _ _ => True) (Z.to_nat (cIns2 (hi - lo + 1))) (lswInsertion lt cap lo hi).
Proof. intros. rewrite lswInsertion_loop. apply sq_insLoop; lia. Qed.

Lemma sq_pivot D lo hi c :
  c = 2 \/ c = 3 /\ 21 <= wq -> 0 <= lo -> 4 * c + 2 <= hi - lo + 1 -> hi < top -> 11 * hi + 29 < 20 * wq ->
  sq D (fun pv _ => lo + c <= pv <= hi - c) (Z.to_nat cPivot2) (lswPivot lt cap meanI lo hi (2 * c + 1)).
Proof.
  intros Hc H0 Hl Hcap Hb. unfold lswPivot.
  rewrite uw_small by lia.
  destruct (minMaxSample_ok (Wd := Wd) (hi + 1 - lo) (2 * c + 1) ltac:(lia) ltac:(lia) ltac:(lia)) as (fr & st & E & Hf & Hst & Hlast).
  rewrite E. replace (2 * c + 1 - 1) with (2 * c) in * by lia.
  set (first := lo + fr). set (m := 2 * c + 1). rewrite lswSamples_loop.
  assert (Hst' : st <= hi - lo) by nia.
  assert (Ewr : first + m * st < 2 * wq).
  { unfold first, m. destruct (minMaxSample_past (Wd := Wd) (hi + 1 - lo) (2 * c + 1) fr st _ ltac:(lia) ltac:(lia) ltac:(lia) E) as [P5 P7].
    destruct Hc as [Hc|[Hc Hc2]]; subst c; [specialize (P5 eq_refl)|specialize (P7 eq_refl)]; lia. }
  apply sq_bind. eapply (sq_apply D D (fun _ => True)).
  { apply (sq_insLoop D first st m); unfold m, first in *; nia. }
  { lia. } { unfold cIns2, cPivot2, m. destruct Hc as [Hc|[Hc _]]; subst c; lia. }
  intros _ n1 _ Hn1.
  assert (Ecost : (12 <= n1)%nat).
  { unfold cIns2, cPivot2, m in *. destruct Hc as [Hc|[Hc _]]; subst c; lia. }
  assert (Em : meanI first (lo + (fr + 2 * c * st)) = first + c * st).
  { assert (2 * meanI first (lo + (fr + 2 * c * st)) = first + (lo + (fr + 2 * c * st))).
    { apply HM; [unfold first; lia|unfold first; nia|unfold first in *; lia|].
      replace (first + (lo + (fr + 2 * c * st))) with (2 * (first + c * st)) by (unfold first; lia).
      apply Z.even_spec. exists (first + c * st). reflexivity. }
    unfold first in *. lia. }
  rewrite Em.
  apply sq_bind, sq_lsw; [lia|unfold first; lia|lia|unfold first; lia|lia|]. intros _ n2 Hn2.
  apply sq_bind, sq_lsw; [lia|lia|nia|lia|nia|]. intros _ n3 Hn3. apply sq_ret.
  assert (lo + fr + c * st <= hi - c) by nia. unfold first. nia.
Qed.

Lemma sq_pivotLong D lo hi : 0 <= lo -> 18 <= hi - lo + 1 -> hi < top -> 11 * hi + 29 < 20 * wq ->
  sq D (fun pv _ => lo + 2 <= pv <= hi - 2) (Z.to_nat cPivot2) (lswPivot lt cap meanI lo hi (nsLong - 1)).
Proof. intros. apply (sq_pivot D lo hi 2); auto; lia. Qed.

Lemma sq_pivotShort D lo hi : 0 <= lo -> 6 <= hi - lo + 1 -> hi < top -> 11 * hi + 29 < 20 * wq ->
  sq D (fun pv _ => lo + 1 <= pv <= hi - 1) 30 (lswPivotShort lt cap lo hi).
Proof.
  intros H0 Hl Hcap Hb. unfold lswPivotShort. rewrite uw_small by lia.
  destruct (minMaxSample_ok (Wd := Wd) (hi + 1 - lo) 3 ltac:(lia) ltac:(lia) ltac:(lia)) as (fr & st & E & Hf & Hst & Hlast).
  rewrite E. set (first := lo + fr). set (pv := first + st). set (last := pv + st).
  assert (B : lo <= first /\ first < pv /\ pv < last /\ last <= hi) by (unfold last, pv, first; lia).
  clearbody first. clearbody pv. clearbody last.
  apply sq_bind, sq_lsw; [lia..|]. intros _ n1 Hn1.
  apply sq_bind, sq_lsw; [lia..|]. intros b n2 Hn2.
  apply sq_bind. eapply (sq_apply D D (fun _ => True)) with (n1 := 6%nat).
  { destruct b; [apply sq_bind, sq_lsw; [lia..|]; intros _ m _|]; apply sq_ret; exact I. }
  { lia. } { lia. }
  intros _ n3 _ Hn3.
  apply sq_bind, sq_lsw; [lia..|]. intros _ n4 Hn4.
  apply sq_bind, sq_lsw; [lia..|]. intros _ n5 Hn5. apply sq_ret. lia.
Qed.

(** ** Partitioning *)

Lemma sq_partOne D a b p : 0 <= a -> a <= b + 1 -> b < top -> 0 <= p < top ->
  sq D (fun k _ => a <= k <= b + 1) (Z.to_nat (cPartL (b - a + 1))) (lswPartOne lt cap a p b).
Proof.
  intros Ha Hab Hb Hp. unfold lswPartOne.
  apply (sq_loop_var D 6 (fun st => match st with
     | LStart l h | LLast l h => a <= l /\ h <= b /\ l - 1 <= h
     | LScan l h | LSecond l h | LNext l h => a <= l < h /\ h <= b
     | LSwap _ _ => False
     end) oneMu2 (fun k => a <= k <= b + 1)).
  2:{ lia. } 2:{ cbn [oneMu2]. lia. } 2:{ cbn [oneMu2]. unfold cPartL. lia. }
  intros [l h|l h|l h|l h|l h|l h] Hst; try contradiction; cbv zeta.
  - destruct (Z.leb_spec (h - 1) l) as [C|C]; [apply sq_ret; lia|].
    apply sq_bind, sq_lsw; [lia..|]. intros [|] n _; apply sq_ret; cbn [oneMu2]; lia.
  - apply sq_ret. cbn [oneMu2]. lia.
  - destruct (Z.ltb_spec l h) as [C|C]; [|apply sq_ret; cbn [oneMu2]; lia].
    apply sq_bind, sq_test; [lia..|]. intros [|]; [apply sq_ret; cbn [oneMu2]; lia|].
    apply sq_bind, sq_test; [lia..|]. intros [|]; apply sq_ret; cbn [oneMu2]; lia.
  - apply sq_bind, sq_lsw; [lia..|]. intros [|] n _; [apply sq_ret; cbn [oneMu2]; lia|].
    destruct (Z.leb_spec h (l + 1)); apply sq_ret; cbn [oneMu2]; lia.
  - destruct (Z.eqb_spec l h) as [E|E]; [destruct (Z.eqb_spec h p) as [E2|E2]|]; cbn [negb andb].
    + apply sq_ret. lia.
    + apply sq_bind, sq_test; [lia..|]. intros [|]; apply sq_ret; lia.
    + apply sq_ret. lia.
Qed.

Lemma sq_partTwo D a l0 h0 b p : 0 <= a -> a <= l0 -> l0 < h0 -> h0 <= b -> b < top -> 0 <= p < top ->
  sq D (fun r _ => a <= r <= l0 \/ h0 <= r <= b + 1) (Z.to_nat (cPartL (b - a + 1))) (lswPartTwo lt cap a l0 p h0 b).
Proof.
  intros Ha Hl0 Hlh Hh0 Hb Hp. unfold lswPartTwo.
  apply (sq_loop_var D 6 (fun st => match st with
     | LStart l h | LScan l h | LSecond l h | LNext l h => a <= l <= l0 /\ h0 <= h <= b
     | LSwap _ _ | LLast _ _ => False
     end) (twoMu2 a b) (fun r => a <= r <= l0 \/ h0 <= r <= b + 1)).
  2:{ lia. } 2:{ cbn [twoMu2]. lia. } 2:{ cbn [twoMu2]. unfold cPartL. lia. }
  intros [l h|l h|l h|l h|l h|l h] Hst; try contradiction; cbv zeta.
  - destruct (Z.ltb_spec b (h + 1)) as [C|C]; [apply sq_ret; lia|].
    apply sq_bind, sq_lsw; [lia..|]. intros [|] n _; apply sq_ret; cbn [twoMu2]; lia.
  - destruct (Z.ltb_spec (l - 1) a) as [C|C]; [apply sq_ret; lia|].
    destruct (Z.ltb_spec b (h + 1)) as [C2|C2]; apply sq_ret; cbn [twoMu2]; lia.
  - apply sq_bind, sq_test; [lia..|]. intros [|]; [apply sq_ret; cbn [twoMu2]; lia|].
    apply sq_bind, sq_test; [lia..|]. intros [|]; apply sq_ret; cbn [twoMu2]; lia.
  - apply sq_bind, sq_lsw; [lia..|]. intros [|] n _; [apply sq_ret; cbn [twoMu2]; lia|].
    destruct (Z.ltb_spec (l - 1) a); apply sq_ret; cbn [twoMu2]; lia.
Qed.

Lemma sq_gapLow D a b r k p : 0 <= a -> b < top -> a - 1 <= r -> r < k -> k <= b + 1 -> a <= p <= b ->
  sq D (fun k' _ => a <= k' <= k) (Z.to_nat (cGapL (b - a + 1))) (lswGapLow lt cap a r k p).
Proof.
  intros Ha Hb Hr Hrk Hk Hp. unfold lswGapLow.
  apply (sq_loop_var D 6 (fun '(r', k', p') => a - 1 <= r' < k' /\ k' <= k /\ a <= p' <= b)
    (fun '(r', k', p') => r' - a + 1) (fun k' => a <= k' <= k)).
  2:{ lia. } 2:{ lia. } 2:{ unfold cGapL. lia. }
  intros [[r' k'] p'] Hst. destruct (Z.leb_spec a r') as [C|C]; [|apply sq_ret; lia].
  apply sq_bind, sq_lsw; [lia..|]. intros [|] n _; cbv zeta; apply sq_ret;
    [destruct (k' - 1 =? p')|]; lia.
Qed.

Lemma sq_gapHigh D a b r k p : 0 <= a -> b < top -> k <= r -> r <= b + 1 -> a <= k -> a <= p <= b ->
  sq D (fun k' _ => k <= k' <= b + 1) (Z.to_nat (cGapL (b - a + 1))) (lswGapHigh lt cap b r k p).
Proof.
  intros Ha Hb Hr Hrk Hk Hp. unfold lswGapHigh.
  apply (sq_loop_var D 6 (fun '(r', k', p') => k <= k' <= r' /\ r' <= b + 1 /\ a <= p' <= b)
    (fun '(r', k', p') => b + 1 - r') (fun k' => k <= k' <= b + 1)).
  2:{ lia. } 2:{ lia. } 2:{ unfold cGapL. lia. }
  intros [[r' k'] p'] Hst. destruct (Z.leb_spec r' b) as [C|C]; [|apply sq_ret; lia].
  apply sq_bind, sq_lsw; [lia..|]. intros [|] n _; cbv zeta; apply sq_ret;
    [destruct (k' =? p')|]; lia.
Qed.

(** ** short, and long without syncVar *)

Lemma sq_short_gen : forall N lo hi,
  hi - lo + 1 <= N -> maxIns < hi - lo + 1 -> 0 <= lo -> hi < top -> 11 * hi + 29 < 20 * wq ->
  sq (Z.to_nat (Z.log2 (hi - lo + 1))) (fun _ _ => True) (Z.to_nat (cSort (hi - lo + 1)))
    (Loop (inl (lo, hi)) (lshortBody lt cap tn)).
Proof.
  intro N. induction (Z.lt_wf 0 N) as [N _ IH]. intros lo hi HN Hs H0 Hcap Hb.
  set (s := rng lo hi). assert (Es : len s = hi - lo + 1) by reflexivity.
  rewrite <- Es in *.
  assert (C1 := cSort_pos (len s)).
  assert (Cm : 100 * 10 * len s <= cSort (len s)) by (unfold cSort; nia).
  apply sq_loop; [lia|]. unfold lshortBody at 2.
  apply sq_bind. eapply (sq_apply 0 _ (fun pv => lo + 1 <= pv <= hi - 1)); [apply sq_pivotShort; lia|lia|lia|].
  intros pv n1 Hpv Hn1.
  apply sq_bind. eapply (sq_apply 0 _ (fun k => lo + 1 <= k <= hi - 1 + 1)); [apply sq_partOne; lia|lia|unfold cPartL; lia|].
  intros l n2 Hl Hn2.
  assert (Hk : 1 <= l - lo <= len s - 1) by lia.
  destruct (lswSplit_ok lo hi l ltac:(lia)) as (l' & h' & lo' & hi' & E & Hsp & B1 & B2 & B3 & B4 & B5 & B6).
  rewrite E. clear E. set (k := l - lo) in *. fold s in Hsp.
  set (aq := rng l' h') in *. set (ar := rng lo' hi') in *.
  assert (Eq : len aq = h' - l' + 1) by reflexivity. assert (Ea : len ar = hi' - lo' + 1) by reflexivity.
  destruct (isSplit_reg s k aq ar Hk Hsp) as (Raq & Rar & Rdis & Haq & Har & Hsum & Hle & Hoff).
  assert (Lq := log2_half (len aq) (len s) Haq ltac:(lia)).
  assert (La : Z.log2 (len ar) <= Z.log2 (len s)) by (apply Z.log2_le_mono; lia).
  assert (Lq0 := Z.log2_nonneg (len aq)). assert (La0 := Z.log2_nonneg (len ar)).
  assert (Cj := cSort_join (len aq) (len ar) (len s) (100 * len s + 500) Haq Har Hsum ltac:(lia) ltac:(lia)).
  assert (Cq0 := cSort_pos (len aq)). assert (Ca0 := cSort_pos (len ar)).
  assert (Cq := cIns2_cSort (len aq) Haq). assert (Ca := cIns2_cSort (len ar) Har).
  assert (Cq1 := cIns2_pos (len aq) ltac:(lia)). assert (Ca1 := cIns2_pos (len ar) ltac:(lia)).
  assert (Hn2' : cSort (len aq) + cSort (len ar) + 100 <= Z.of_nat n2) by (unfold cPartL in *; lia).
  assert (Hgo : forall n, maxIns <= hi' - lo' -> cSort (len ar) <= Z.of_nat n ->
    sq (Z.to_nat (Z.log2 (len s))) (fun _ _ => True) n (Loop (inl (lo', hi')) (lshortBody lt cap tn))).
  { intros n Hbig Hn. eapply (sq_apply _ _ (fun _ => True)); [apply (IH (len ar)) with (lo := lo') (hi := hi'); lia
                      |rewrite <- Ea; lia|rewrite <- Ea; lia|]. auto. }
  destruct (Z.leb_spec maxIns (h' - l')) as [Cc|Cc].
  - (* recurse on the shorter range *)
    apply sq_calln; [lia|lia|]. cbn [lswBody]. rewrite lshort_unfold.
    eapply (sq_apply _ _ (fun _ => True)); [apply (IH (len aq)) with (lo := l') (hi := h'); lia
                      |rewrite <- Eq; lia|rewrite <- Eq; lia|].
    intros _ n3 _ Hn3. rewrite <- Eq in Hn3. split; [lia|]. apply sq_ret. apply Hgo; lia.
  - apply sq_ret. apply sq_loop; [lia|]. cbn [lshortBody].
    apply sq_bind. eapply (sq_apply 0 _ (fun _ => True)); [apply (sq_insertion 0 l' h'); lia|lia|rewrite <- Eq; lia|].
    intros _ n3 _ Hn3. rewrite <- Eq in Hn3.
    destruct (Z.leb_spec maxIns (hi' - lo')) as [Cr|Cr].
    + apply sq_ret. apply Hgo; lia.
    + change (off ar) with lo' in Hoff. change (off aq) with l' in Hoff.
      destruct (Z.eqb_spec lo' l') as [Eo|_]; [exfalso; exact (Hoff Eo)|]. cbn [negb].
      apply sq_ret. apply sq_loop; [lia|]. cbn [lshortBody].
      apply sq_bind. eapply (sq_apply 0 _ (fun _ => True)); [apply (sq_insertion 0 lo' hi'); lia|lia|rewrite <- Ea; lia|].
      intros _ n4 _ Hn4.
      destruct (Z.leb_spec maxIns (hi' - lo')); [lia|].
      rewrite Z.eqb_refl. cbn [negb]. apply sq_ret. exact I.
Qed.

Lemma sq_short lo hi : maxIns < hi - lo + 1 -> 0 <= lo -> hi < top -> 11 * hi + 29 < 20 * wq ->
  sq (Z.to_nat (Z.log2 (hi - lo + 1))) (fun _ _ => True) (Z.to_nat (cSort (hi - lo + 1))) (lswShort lt cap tn lo hi).
Proof. intros. rewrite lshort_unfold. eapply sq_short_gen; [apply Z.le_refl|assumption..]. Qed.

Lemma sq_small lo hi : 0 <= lo -> lo <= hi -> hi < top -> 11 * hi + 29 < 20 * wq ->
  sq (Z.to_nat (Z.log2 (hi - lo + 1) + 1)) (fun _ _ => True) (Z.to_nat (cSort (hi - lo + 1) + 2))
    (if maxIns <=? hi - lo then Call (LShort lo hi) (Ret tt) else lswInsertion lt cap lo hi).
Proof.
  intros H1 H2 H3 H4. set (m := hi - lo + 1) in *.
  assert (H0 := Z.log2_nonneg m). assert (C0 := cSort_pos m).
  destruct (Z.leb_spec maxIns (hi - lo)) as [C|C].
  - apply sq_calln; [lia|lia|]. cbn [lswBody].
    eapply (sq_apply _ _ (fun _ => True)); [apply (sq_short lo hi); lia|fold m; lia|fold m; lia|].
    fold m. intros _ n _ Hm. split; [lia|]. apply sq_ret. exact I.
  - assert (Ci := cIns2_cSort m ltac:(lia)). assert (Ci' := cIns2_pos m ltac:(lia)).
    eapply (sq_apply 0 _ (fun _ => True)); [apply (sq_insertion 0 lo hi); assumption|lia|fold m; lia|]. auto.
Qed.

Lemma sq_long_gen : forall N lo hi,
  hi - lo + 1 <= N -> maxRec < hi - lo + 1 -> 0 <= lo -> hi < top -> 11 * hi + 29 < 20 * wq ->
  sq (Z.to_nat (Z.log2 (hi - lo + 1) + 1)) (fun _ _ => True) (Z.to_nat (cSort (hi - lo + 1)))
    (Loop (lo, hi) (llongBody lt cap tn meanI false)).
Proof.
  intro N. induction (Z.lt_wf 0 N) as [N _ IH]. intros lo hi HN Hs H0 Hcap Hb.
  set (s := rng lo hi). assert (Es : len s = hi - lo + 1) by reflexivity.
  rewrite <- Es in *.
  assert (C1 := cSort_pos (len s)).
  assert (Cm : 100 * 12 * len s <= cSort (len s)) by (unfold cSort; nia).
  apply sq_loop; [lia|]. unfold llongBody at 2.
  apply sq_bind. eapply (sq_apply 0 _ (fun pv => lo + 2 <= pv <= hi - 2)); [apply sq_pivotLong; lia|lia|unfold cPivot2; lia|].
  intros pv n1 Hpv Hn1.
  apply sq_bind. eapply (sq_apply 0 _ (fun k => lo + 1 <= k <= hi - 1 + 1)); [apply sq_partOne; lia|lia|unfold cPivot2, cPartL in *; lia|].
  intros l n2 Hl Hn2.
  assert (Hk : 1 <= l - lo <= len s - 1) by lia.
  destruct (lswSplit_ok lo hi l ltac:(lia)) as (l' & h' & lo' & hi' & E & Hsp & B1 & B2 & B3 & B4 & B5 & B6).
  rewrite E. clear E. set (k := l - lo) in *. fold s in Hsp.
  set (aq := rng l' h') in *. set (ar := rng lo' hi') in *.
  assert (Eq : len aq = h' - l' + 1) by reflexivity. assert (Ea : len ar = hi' - lo' + 1) by reflexivity.
  destruct (isSplit_reg s k aq ar Hk Hsp) as (Raq & Rar & Rdis & Haq & Har & Hsum & Hle & Hoff).
  assert (Lq := log2_half (len aq) (len s) Haq ltac:(lia)).
  assert (La : Z.log2 (len ar) <= Z.log2 (len s)) by (apply Z.log2_le_mono; lia).
  assert (Lq0 := Z.log2_nonneg (len aq)). assert (La0 := Z.log2_nonneg (len ar)).
  assert (Cj := cSort_join (len aq) (len ar) (len s) (100 * len s + 500) Haq Har Hsum ltac:(lia) ltac:(lia)).
  assert (Cq0 := cSort_pos (len aq)). assert (Ca0 := cSort_pos (len ar)).
  assert (Hn2' : cSort (len aq) + cSort (len ar) + 15 <= Z.of_nat n2) by (unfold cPivot2, cPartL in *; lia).
  assert (Hgo : forall n, maxRec <= hi' - lo' -> cSort (len ar) <= Z.of_nat n ->
    sq (Z.to_nat (Z.log2 (len s) + 1)) (fun _ _ => True) n (Loop (lo', hi') (llongBody lt cap tn meanI false))).
  { intros n Hbig Hn. eapply (sq_apply _ _ (fun _ => True)); [apply (IH (len ar)) with (lo := lo') (hi := hi'); lia
                      |rewrite <- Ea; lia|rewrite <- Ea; lia|]. auto. }
  destruct (Z.ltb_spec (h' - l') maxRec) as [Cc|Cc].
  - apply sq_bind. eapply (sq_apply _ _ (fun _ => True)); [apply (sq_small l' h'); lia|rewrite <- Eq; lia|rewrite <- Eq; lia|].
    rewrite <- Eq. intros _ n3 _ Hn3.
    destruct (Z.leb_spec maxRec (hi' - lo')) as [Cr|Cr].
    + apply sq_ret. apply Hgo; lia.
    + apply sq_calln; [lia|lia|]. cbn [lswBody].
      eapply (sq_apply _ _ (fun _ => True)); [apply (sq_short lo' hi'); lia|rewrite <- Ea; lia|rewrite <- Ea; lia|].
      rewrite <- Ea. intros _ n4 _ Hn4. split; [lia|]. apply sq_ret. exact I.
  - apply sq_bind, sq_ret.
    apply sq_calln; [lia|lia|]. cbn [lswBody]. rewrite llong_unfold.
    eapply (sq_apply _ _ (fun _ => True)); [apply (IH (len aq)) with (lo := l') (hi := h'); lia
                      |rewrite <- Eq; lia|rewrite <- Eq; lia|].
    rewrite <- Eq. intros _ n3 _ Hn3. split; [lia|]. apply sq_ret. apply Hgo; lia.
Qed.

(** ** With syncVar *)

Lemma wp_sq {A} D1 D n1 n (Post : A -> Prop) (Q : A -> nat -> gst unit -> Prop) c g :
  sq D1 (fun a _ => Post a) n1 c -> live g -> (D1 <= D)%nat -> (n1 <= n)%nat ->
  (forall a m x, Post a -> (n <= m + n1)%nat -> Q a m (setseen g x)) -> wp D Q n (er c) g.
Proof.
  intros H Hg HD Hn HQ. eapply wp_more; [exact (H g Hg)|exact HD|exact Hn|].
  cbv beta. intros a m g' Hm [H1 [x ->]]. apply HQ; [exact H1|lia].
Qed.

(** A goroutine that is counted, is not waited for by another goroutine for a part, and has
    promised nothing about the elements. *)
Definition loose (a : act unit) : Prop := idle a /\ forall w, a_P a w.

(** It went on with cells of [R], handing over some of them. *)
Definition went (R : cells) (g : gst unit) (a : act unit) (g' : gst unit) : Prop :=
  exists a', md g' = MAct a' /\ a_main a' = a_main a /\ loose a' /\ forall i, dom g i -> ~ R i -> dom g' i.

Lemma wp_blong_gen : forall N lo hi g a,
  hi - lo + 1 <= N -> maxRec < hi - lo + 1 -> 0 <= lo -> hi < top -> 11 * hi + 29 < 20 * wq ->
  md g = MAct a -> loose a -> (forall i, reg (rng lo hi) i -> dom g i) ->
  (Z.to_nat (Z.log2 (hi - lo + 1) + 2) <= Dm)%nat ->
  wp (Z.to_nat (Z.log2 (hi - lo + 1) + 1)) (fun _ _ g' => went (reg (rng lo hi)) g a g')
    (Z.to_nat (cSort (hi - lo + 1))) (er (Loop (lo, hi) (llongBody lt cap tn meanI true))) g.
Proof.
  intro N. induction (Z.lt_wf 0 N) as [N _ IH]. intros lo hi g a HN Hs H0 Hcap Hb Hmd [Hidle HPa] Hdom HDm.
  set (s := rng lo hi) in *. assert (Es : len s = hi - lo + 1) by reflexivity.
  rewrite <- Es in *.
  assert (Hlive : live g) by (unfold live; rewrite Hmd; exact I).
  assert (C1 := cSort_pos (len s)).
  assert (Cm : 100 * 12 * len s <= cSort (len s)) by (unfold cSort; nia).
  cbn [erase]. apply wp_loop; [lia|]. unfold llongBody at 2. cbn [erase].
  apply wp_bind. eapply (wp_sq 0); [apply sq_pivotLong; lia|exact Hlive|lia|unfold cPivot2; lia|].
  cbv beta. intros pv n1 x1 Hpv Hn1. cbn [erase].
  apply wp_bind. eapply (wp_sq 0); [apply sq_partOne; lia|exact Hlive|lia|unfold cPivot2, cPartL in *; lia|].
  cbv beta. intros l n2 x2 Hl Hn2. cbn [setseen dom rd val md seen].
  assert (Hk : 1 <= l - lo <= len s - 1) by lia.
  destruct (lswSplit_ok lo hi l ltac:(lia)) as (l' & h' & lo' & hi' & E & Hsp & B1 & B2 & B3 & B4 & B5 & B6).
  rewrite E. clear E. set (k := l - lo) in *. fold s in Hsp.
  set (aq := rng l' h') in *. set (ar := rng lo' hi') in *.
  assert (Eq : len aq = h' - l' + 1) by reflexivity. assert (Ea : len ar = hi' - lo' + 1) by reflexivity.
  destruct (isSplit_reg s k aq ar Hk Hsp) as (Raq & Rar & Rdis & Haq & Har & Hsum & Hle & Hoff).
  assert (Lq := log2_half (len aq) (len s) Haq ltac:(lia)).
  assert (La : Z.log2 (len ar) <= Z.log2 (len s)) by (apply Z.log2_le_mono; lia).
  assert (Lq0 := Z.log2_nonneg (len aq)). assert (La0 := Z.log2_nonneg (len ar)).
  assert (Cj := cSort_join (len aq) (len ar) (len s) (100 * len s + 500) Haq Har Hsum ltac:(lia) ltac:(lia)).
  assert (Cq0 := cSort_pos (len aq)). assert (Ca0 := cSort_pos (len ar)).
  assert (Hn3' : cSort (len aq) + cSort (len ar) + 15 <= Z.of_nat n2) by (unfold cPivot2, cPartL in *; lia).
  clear Hn1 Hn2 n1. rename n2 into n.
  set (g1 := Gst (dom g) (rd g) (val g) (md g) x2).
  assert (Hlive1 : live g1) by exact Hlive.
  assert (Rdis' : forall i, reg ar i -> ~ reg aq i) by (intros i H1 H2; exact (Rdis i H2 H1)).
  (* continuing with the longer range after the shorter one *)
  assert (Hgo : forall n g2, went (reg aq) g a g2 ->
    cSort (len ar) + 1 <= Z.of_nat n -> maxRec < len ar ->
    wp (Z.to_nat (Z.log2 (len s) + 1)) (fun _ _ g' => went (reg s) g a g') n
       (er (Loop (lo', hi') (llongBody lt cap tn meanI true))) g2).
  { intros m g2 (a2 & Em & Eam & Hl2 & HD) Hm Hbig.
    eapply wp_apply; [apply (IH (len ar)) with (lo := lo') (hi := hi') (a := a2); [lia|lia|lia|lia|lia|lia|exact Em|exact Hl2| |]
                      |rewrite <- Ea; lia|rewrite <- Ea; lia|].
    { fold ar. intros i Hr. apply HD; auto. }
    { rewrite <- Ea. lia. }
    cbv beta. fold ar. intros _ n4 g3 (a3 & Em3 & Eam3 & Hl3 & HD3) Hn4.
    exists a3. split; [exact Em3|]. split; [congruence|]. split; [exact Hl3|].
    intros i Hi Hn. apply HD3; [apply HD; auto|auto]. }
  destruct (Z.ltb_spec (h' - l') maxRec) as [Cc|Cc].
  - cbn [erase]. apply wp_bind. eapply wp_sq; [apply (sq_small l' h'); lia|exact Hlive1|rewrite <- Eq; lia|rewrite <- Eq; lia|].
    cbv beta. rewrite <- Eq. intros [] n3 x3 _ Hn3.
    assert (Hw : forall R, went R g a (setseen g1 x3)).
    { intro R. exists a. split; [exact Hmd|]. split; [reflexivity|]. split; [split; assumption|]. intros i Hi _. exact Hi. }
    destruct (Z.leb_spec maxRec (hi' - lo')) as [Cr|Cr]; cbn [erase].
    + apply wp_ret. apply Hgo; [apply Hw|lia|lia].
    + apply wp_calln; [lia|lia|exact Hlive|]. ub. cbn [lswBody].
      eapply wp_sq; [apply (sq_short lo' hi'); lia|exact Hlive|rewrite <- Ea; lia|rewrite <- Ea; lia|].
      cbv beta. rewrite <- Ea. intros [] n4 x4 _ Hn4. split; [lia|]. apply wp_ret.
      exists a. split; [exact Hmd|]. split; [reflexivity|]. split; [split; assumption|]. intros i Hi _. exact Hi.
  - cbn [erase]. apply wp_bind. unfold lswGorFull. cbn [erase]. apply wp_loadmax; [lia|exact Hlive1|]. intros mg Hmg.
    cbn [erase]. eapply wp_loadgor; [lia|exact Hmd|apply Hidle|apply Hidle|]. intros ng.
    cbn [erase g1 setval setseen setmd dom rd val md seen]. apply wp_ret.
    set (a1 := settok a (ng <? mg)).
    assert (Hidle1 : idle a1) by exact Hidle.
    destruct (Z.leb_spec mg ng) as [Cf|Cf]; cbn [erase].
    + apply wp_calln; [lia|lia|exact I|]. ub. cbn [lswBody]. rewrite llong_unfold.
      eapply wp_apply; [apply (IH (len aq)) with (lo := l') (hi := h') (a := a1); [lia|lia|lia|lia|lia|lia|reflexivity|split; [exact Hidle1|exact HPa]| |]
                        |rewrite <- Eq; lia|rewrite <- Eq; lia|].
      { fold aq. intros i Hr. apply Hdom. auto. }
      { rewrite <- Eq. lia. }
      cbv beta. rewrite <- Eq. fold aq. intros _ n4 g2 Hw Hn4. split; [lia|]. apply wp_ret.
      apply Hgo; [exact Hw|lia|lia].
    + eapply wp_addinc; [lia|reflexivity|apply Hidle1| |apply Hidle1| |].
      { cbn. destruct (Z.ltb_spec ng mg); [reflexivity|lia]. }
      { apply (ltwice_of tn HIns HRec aq ar); [lia|lia|intros i Hi; apply Hdom; auto|intros i Hi; apply Hdom; auto|exact Rdis]. }
      intros z. cbn [erase]. eapply wp_forkcredit with (d1 := reg ar) (P1 := fun _ => True) (P2 := fun _ => True)
        (n1 := Z.to_nat (cSort (len ar) + 4)) (n2 := Z.to_nat (cSort (len aq)));
        [reflexivity|reflexivity|apply Hidle1| | | | |lia| | ].
      { intros i Hr. apply Hdom. auto. }
      { apply (lmany_of tn HIns HRec ar); [lia|auto]. }
      { apply (lmany_of tn HIns HRec aq); [lia|]. intros i Hi. split; [apply Hdom; auto|]. intro Hi'. exact (Rdis i Hi Hi'). }
      { intros w _ _. apply HPa. }
      * (* the new goroutine *)
        constructor. ub. cbn [lswBody]. unfold lswGLong. cbn [erase].
        apply wp_calln; [lia|lia|exact I|]. ub. cbn [lswBody]. rewrite llong_unfold.
        eapply wp_apply; [apply (IH (len ar)) with (lo := lo') (hi := hi') (a := Act None (fun _ => True) false false None);
          [lia|lia|lia|lia|lia|lia|reflexivity|split; [split; reflexivity|intro; exact I]| |]|rewrite <- Ea; lia|rewrite <- Ea; lia|].
        { auto. } { rewrite <- Ea. lia. }
        cbv beta. rewrite <- Ea. fold ar.
        intros _ n4 g2 (a2 & Em & Eam & [Hi HP] & HD) Hn4. split; [lia|].
        eapply wp_adddec; [lia|exact Em|apply Hi|apply Hi|intros w _; apply HP|].
        intros z' Hz'. unfold signed_off. rewrite Eam. cbn [a_main]. destruct (Z.eqb_spec z' 0); cbn [erase].
        -- apply wp_sendlast; [lia|reflexivity|]. apply wp_ret. reflexivity.
        -- apply wp_ret. reflexivity.
      * (* going on with the shorter range *)
        cbn [erase]. apply wp_ret. cbn [setval setseen setmd dom rd val md seen].
        set (a2 := forked (setcredit a1) (fun _ => True)).
        eapply wp_apply; [apply (IH (len aq)) with (lo := l') (hi := h') (a := a2); [lia|lia|lia|lia|lia|lia|reflexivity|split; [split; [reflexivity|apply Hidle1]|intro; exact I]| |]
                        |rewrite <- Eq; lia|rewrite <- Eq; lia|].
        { cbn. fold aq. intros i Hr. split; auto. }
        { rewrite <- Eq. lia. }
        fold aq. intros _ n4 g3 (a3 & Em3 & Eam3 & Hl3 & HD3) Hn4.
        exists a3. split; [exact Em3|]. split; [exact Eam3|]. split; [exact Hl3|].
        intros i Hi Hn. apply HD3; [split; [exact Hi|auto]|auto].
Qed.

Lemma wp_blong lo hi g a : maxRec < hi - lo + 1 -> 0 <= lo -> hi < top -> 11 * hi + 29 < 20 * wq ->
  md g = MAct a -> loose a -> (forall i, reg (rng lo hi) i -> dom g i) ->
  (Z.to_nat (Z.log2 (hi - lo + 1) + 2) <= Dm)%nat ->
  wp (Z.to_nat (Z.log2 (hi - lo + 1) + 1)) (fun _ _ g' => went (reg (rng lo hi)) g a g')
    (Z.to_nat (cSort (hi - lo + 1))) (er (lswLong lt cap tn meanI lo hi true)) g.
Proof. intros. rewrite llong_unfold. eapply wp_blong_gen; [apply Z.le_refl|eassumption..]. Qed.

(** gLong started on its own range. *)
Lemma wpT_bGLong lo hi v :
  maxRec < hi - lo + 1 -> 0 <= lo -> hi < top -> 11 * hi + 29 < 20 * wq ->
  (Z.to_nat (Z.log2 (hi - lo + 1) + 2) <= Dm)%nat ->
  W (Z.to_nat (cSort (hi - lo + 1) + 4)) (bbody (LGLong lo hi))
    (Gst (reg (rng lo hi)) (reg (rng lo hi)) v (MAct (Act None (fun _ => True) false false None)) 0).
Proof.
  intros Hs H0 Hcap Hb HDm. set (m := hi - lo + 1) in *.
  assert (C1 := cSort_pos m). assert (L0 := Z.log2_nonneg m).
  constructor. ub. cbn [lswBody]. unfold lswGLong. cbn [erase].
  apply wp_calln; [lia|lia|exact I|]. ub. cbn [lswBody].
  eapply wp_apply; [apply (wp_blong lo hi) with (a := Act None (fun _ => True) false false None);
    [exact Hs|exact H0|exact Hcap|exact Hb|reflexivity|split; [split; reflexivity|intro; exact I]|auto|exact HDm]|fold m; lia|fold m; lia|].
  cbv beta. fold m. intros _ n4 g2 (a2 & Em & Eam & [Hi HP] & HD) Hn4. split; [lia|].
  eapply wp_adddec; [lia|exact Em|apply Hi|apply Hi|intros w _; apply HP|].
  intros z' Hz'. unfold signed_off. rewrite Eam. cbn [a_main]. destruct (Z.eqb_spec z' 0); cbn [erase].
  - apply wp_sendlast; [lia|reflexivity|]. apply wp_ret. reflexivity.
  - apply wp_ret. reflexivity.
Qed.

Lemma wp_bPartCon lo hi g a D : 21 <= wq ->
  14 <= hi - lo + 1 -> twice (Gr := G) (dom g) -> 0 <= lo -> hi < top -> 11 * hi + 29 < 20 * wq ->
  md g = MAct a -> a_main a <> None -> a_tok a = true -> loose a ->
  wp D (fun l _ g' => lo + 1 <= l <= hi /\ exists a', md g' = MAct a' /\ a_main a' = a_main a /\
          a_tok a' = true /\ loose a' /\ forall i, dom g i -> dom g' i)
    (Z.to_nat (cPC2 (hi - lo + 1))) (er (lswPartCon lt cap meanI lo hi)) g.
Proof.
  intros Hwq Hs Htw H0 Hcap Hb Hmd Hmain Htok [Hidle HPa].
  assert (Hlive : live g) by (unfold live; rewrite Hmd; exact I).
  unfold lswPartCon. cbn [erase]. apply wp_bind. change (nsConc - 1) with (2 * 3 + 1) at 1.
  eapply (wp_sq 0); [apply (sq_pivot 0 lo hi 3); lia|exact Hlive|lia|unfold cPivot2, cPC2; lia|].
  cbv beta. intros pv n1 x1 Hpv Hn1. cbn [setseen dom rd val md seen].
  cbv zeta. set (l := meanI (lo + 1) pv). set (h := meanI pv (hi - 1)).
  assert (Hl : lo + 1 <= l < pv) by (unfold l; apply HmeanI; lia).
  assert (Hh : pv <= h < hi - 1) by (unfold h; apply HmeanI; lia).
  clearbody l h. cbn [erase].
  eapply wp_forkpart with (dj := fun _ => False) (d2 := fun _ => False) (r2 := fun _ => False)
    (post := fun k _ => l + 1 <= k <= h)
    (n1 := Z.to_nat (cPartL (hi - lo + 1) + 1)) (n2 := Z.to_nat (cPartL (hi - lo + 1) + cGapL (hi - lo + 1) + 2));
    [exact Hmd|exact Hmain|apply Hidle|exact Htok|apply Hidle|tauto|tauto|tauto|exact Htw|tauto| | | ].
  { unfold cPartL, cGapL, cPivot2, cPC2 in *. lia. }
  { (* the partner *)
    constructor. ub. cbn [lswBody]. unfold lswGPartOne. cbn [erase]. apply wp_bind.
    eapply wp_sq; [apply (sq_partOne 0 (l + 1) (h - 1) pv); lia|exact I|lia|unfold cPartL; lia|].
    cbv beta. intros k n3 x3 Hk Hn3. cbn [erase].
    eapply wp_sendpart; [unfold cPartL in *; lia|reflexivity| |apply wp_ret; reflexivity].
    intros w _. cbn [j_post]. lia. }
  cbn [erase]. apply wp_bind.
  eapply (wp_sq 0); [apply (sq_partTwo 0 (lo + 1) l h (hi - 1) pv); lia|exact I|lia|unfold cPartL, cGapL; lia|].
  cbv beta. cbn [setseen dom rd val md seen]. intros r n3 x3 Hr Hn3. cbn [erase].
  eapply wp_recvjoin; [unfold cPartL, cGapL in *; lia|reflexivity|reflexivity|].
  cbn [setjoin dom rd val md seen j_post j_D]. intros km w _ Hkm.
  assert (Hn4 : (Z.to_nat (cGapL (hi - 1 - (lo + 1) + 1)) <= n3 - 1)%nat) by (unfold cPartL, cGapL in *; lia).
  assert (Fin : forall k m x, lo + 1 <= k <= hi ->
    (fun (l : Z) (_ : nat) g' => lo + 1 <= l <= hi /\ exists a', md g' = MAct a' /\ a_main a' = a_main a /\
          a_tok a' = true /\ loose a' /\ forall i, dom g i -> dom g' i) k m
     (setseen (Gst (union (minus (dom g) (fun _ => False)) (fun _ => False))
                   (union (minus (rd g) (fun _ => False)) (fun _ => False)) w (MAct (setjoin a None)) x3) x)).
  { intros k m x Hk. split; [exact Hk|]. exists (setjoin a None). split; [reflexivity|]. split; [reflexivity|].
    split; [exact Htok|]. split; [split; [split; [apply Hidle|reflexivity]|exact HPa]|].
    intros i Hi. left. split; [exact Hi|intros []]. }
  destruct (Z.ltb_spec r pv) as [Cr|Cr].
  - eapply (wp_sq 0); [apply (sq_gapLow 0 (lo + 1) (hi - 1) r km pv); lia|exact I|lia|exact Hn4|].
    cbv beta. intros k m x Hk Hm. exact (Fin k m x ltac:(lia)).
  - eapply (wp_sq 0); [apply (sq_gapHigh 0 (lo + 1) (hi - 1) r km pv); lia|exact I|lia|exact Hn4|].
    cbv beta. intros k m x Hk Hm. exact (Fin k m x ltac:(lia)).
Qed.

(** ** Sort *)

Definition bMInv (ar : slice) (g : gst unit) (a : act unit) : Prop :=
  md g = MAct a /\ a_main a = Some (fun _ => True) /\ loose a /\ (forall i, reg ar i -> dom g i) /\ maxRec < len ar.

Definition bMPost lo hi (p : Z * Z) (m : nat) (g' : gst unit) : Prop :=
  lo <= fst p /\ snd p <= hi /\ (exists a', bMInv (rng (fst p) (snd p)) g' a') /\
  cSort (snd p - fst p + 1) + 8 <= Z.of_nat m.

Lemma wp_bMainLoop : forall N lo hi g a,
  hi - lo + 1 <= N -> 2 * (maxRec + 1) <= hi - lo + 1 -> 0 <= lo -> hi < top -> 11 * hi + 29 < 20 * wq ->
  bMInv (rng lo hi) g a -> a_tok a = true ->
  (Z.to_nat (Z.log2 (hi - lo + 1) + 2) <= Dm)%nat ->
  wp (Z.to_nat (Z.log2 (hi - lo + 1) + 2)) (bMPost lo hi)
    (Z.to_nat (cSort (hi - lo + 1) + 8)) (er (Loop (lo, hi) (lmainBody lt cap tn meanI))) g.
Proof.
  intro N. induction (Z.lt_wf 0 N) as [N _ IH]. intros lo hi g a HN Hs H0 Hcap Hb Hinv Htok HDm.
  set (s := rng lo hi) in *. assert (Es : len s = hi - lo + 1) by reflexivity.
  rewrite <- Es in *.
  destruct Hinv as (Hmd & Hmain & Hloose & Hdom & Hlen).
  assert (C1 := cSort_pos (len s)).
  assert (Cm : 100 * 40 * len s <= cSort (len s)) by (unfold cSort; nia).
  cbn [erase]. apply wp_loop; [lia|]. unfold lmainBody at 2. cbn [erase].
  apply wp_bind. eapply wp_apply;
    [apply (wp_bPartCon lo hi g a 0); [lia|lia|apply (ltwice_one tn HIns HRec s); [lia|exact Hdom]|lia|lia|lia|exact Hmd|congruence|exact Htok|exact Hloose]
    |lia|rewrite <- Es; unfold cPC2; lia|].
  cbv beta. rewrite <- Es. intros l n2 g1 (Hl & a1 & Hmd1 & Hmain1 & Htok1 & [Hidle1 HP1] & Hd1) Hn1.
  assert (Hlive1 : live g1) by (unfold live; rewrite Hmd1; exact I).
  assert (Hk : 1 <= l - lo <= len s - 1) by lia.
  destruct (lswSplit_ok lo hi l ltac:(lia)) as (l' & h' & lo' & hi' & E & Hsp & B1 & B2 & B3 & B4 & B5 & B6).
  rewrite E. clear E. set (k := l - lo) in *. fold s in Hsp.
  set (aq := rng l' h') in *. set (ar := rng lo' hi') in *.
  assert (Eq : len aq = h' - l' + 1) by reflexivity. assert (Ea : len ar = hi' - lo' + 1) by reflexivity.
  destruct (isSplit_reg s k aq ar Hk Hsp) as (Raq & Rar & Rdis & Haq & Har & Hsum & Hle & Hoff).
  assert (Lq := log2_half (len aq) (len s) Haq ltac:(lia)).
  assert (La : Z.log2 (len ar) <= Z.log2 (len s)) by (apply Z.log2_le_mono; lia).
  assert (Lq0 := Z.log2_nonneg (len aq)). assert (La0 := Z.log2_nonneg (len ar)).
  assert (Cj := cSort_join2 (len aq) (len ar) (len s) (cPC2 (len s) + 100) Haq Har Hsum ltac:(unfold cPC2; lia)).
  assert (Cq0 := cSort_pos (len aq)). assert (Ca0 := cSort_pos (len ar)).
  assert (Hn2' : cSort (len aq) + cSort (len ar) + 30 <= Z.of_nat n2) by (unfold cPC2 in *; lia).
  clear Hn1. rename n2 into n.
  assert (Rdis' : forall i, reg ar i -> ~ reg aq i) by (intros i Hx1 Hx2; exact (Rdis i Hx2 Hx1)).
  assert (Hbig : maxRec < len ar) by lia.
  (* what follows once the shorter range is dealt with *)
  assert (Hgo : forall n g2 a2, bMInv ar g2 a2 -> cSort (len ar) + 12 <= Z.of_nat n ->
    wp (Z.to_nat (Z.log2 (len s) + 2))
      (fun r m g' => match r with
         | inl s' => wp (Z.to_nat (Z.log2 (len s) + 2)) (bMPost lo hi) m
             (Loop s' (fun x => er (lmainBody lt cap tn meanI x))) g'
         | inr p => bMPost lo hi p m g'
         end) n
      (er (if hi' - lo' <=? lswConc tn then Ret (inr (lo', hi'))
       else Bind lswGorFull (fun full : bool => if full then Ret (inr (lo', hi')) else Ret (inl (lo', hi'))))) g2).
  { intros m g2 a2 Hi2 Hm.
    rewrite (lswConc_plain tn HIns HRec HRec2). destruct (Z.leb_spec (hi' - lo') (2 * maxRec)) as [Cs|Cs]; cbn [erase].
    { apply wp_ret. split; [cbn [fst snd]; lia|]. split; [cbn [fst snd]; lia|]. split; [exists a2; exact Hi2|cbn [fst snd]; rewrite <- Ea; lia]. }
    assert (Hi2' := Hi2). destruct Hi2' as (Hmd2 & Hmain2 & [Hidle2 HP2] & Hdom2 & Hlen2).
    apply wp_bind. unfold lswGorFull. cbn [erase]. apply wp_loadmax; [lia|unfold live; rewrite Hmd2; exact I|]. intros mg Hmg.
    cbn [erase]. eapply wp_loadgor; [lia|exact Hmd2|apply Hidle2|apply Hidle2|]. intros ng. cbn [erase].
    set (a3 := settok a2 (ng <? seen (setseen g2 mg))).
    set (g3 := setmd (setseen g2 mg) (MAct a3)).
    assert (Hi3 : bMInv ar g3 a3).
    { split; [reflexivity|]. split; [exact Hmain2|]. split; [split; [exact Hidle2|exact HP2]|]. split; [exact Hdom2|exact Hlen2]. }
    apply wp_ret. destruct (Z.leb_spec mg ng) as [Cf|Cf]; cbn [erase].
    - apply wp_ret. split; [cbn [fst snd]; lia|]. split; [cbn [fst snd]; lia|]. split; [exists a3; exact Hi3|cbn [fst snd]; rewrite <- Ea; lia].
    - apply wp_ret. eapply wp_more;
        [apply (IH (len ar)) with (lo := lo') (hi := hi') (a := a3); [lia|lia|lia|lia|lia|lia|exact Hi3| |rewrite <- Ea; lia]
        |rewrite <- Ea; lia|rewrite <- Ea; lia|].
      + cbn. destruct (Z.ltb_spec ng mg); [reflexivity|lia].
      + cbv beta. intros [lo2 hi2] m' g' Hm' (Hl1 & Hl2 & Ha & Hc). cbn [fst snd] in *. split; [cbn; lia|]. split; [cbn; lia|]. split; [exact Ha|cbn [fst snd]; lia]. }
  cbn [erase]. apply wp_bind. destruct (Z.leb_spec maxRec (h' - l')) as [Cc|Cc]; cbn [erase].
  - (* a goroutine for the shorter range *)
    eapply wp_addinc; [lia|exact Hmd1|apply Hidle1|exact Htok1|apply Hidle1| |].
    { apply (ltwice_of tn HIns HRec aq ar); [lia|lia|intros i Hi; apply Hd1, Hdom; auto|intros i Hi; apply Hd1, Hdom; auto|exact Rdis]. }
    intros z. cbn [erase]. eapply wp_forkcredit with (d1 := reg aq) (P1 := fun _ => True) (P2 := fun _ => True)
        (n1 := Z.to_nat (cSort (len aq) + 4)) (n2 := Z.to_nat (cSort (len ar) + 12));
        [reflexivity|reflexivity|apply Hidle1| | | | |lia| | ].
    { intros i Hr. apply Hd1, Hdom. auto. }
    { apply (lmany_of tn HIns HRec aq); [lia|auto]. }
    { apply (lmany_of tn HIns HRec ar); [lia|]. intros i Hi. split; [apply Hd1, Hdom; auto|]. intro Hi'. exact (Rdis i Hi' Hi). }
    { intros w _ _. apply HP1. }
    + rewrite Eq. apply wpT_bGLong; [lia|lia|lia|lia|rewrite <- Eq; lia].
    + cbn [erase setmd dom rd val md seen]. apply wp_ret.
      apply (Hgo _ _ (forked (setcredit a1) (fun _ => True))); [|lia].
      split; [reflexivity|]. split; [exact (eq_trans Hmain1 Hmain)|]. split; [split; [split; [reflexivity|apply Hidle1]|intro; exact I]|].
      split; [|exact Hbig]. intros i Hr. split; [apply Hd1, Hdom; auto|auto].
  - eapply wp_sq; [apply (sq_small l' h'); lia|exact Hlive1|rewrite <- Eq; lia|rewrite <- Eq; lia|].
    cbv beta. rewrite <- Eq. intros [] n3 x3 _ Hn3.
    apply (Hgo _ _ a1); [|lia].
    split; [exact Hmd1|]. split; [exact (eq_trans Hmain1 Hmain)|]. split; [split; [exact Hidle1|exact HP1]|].
    split; [|exact Hbig]. intros i Hr. cbn. apply Hd1, Hdom. auto.
Qed.

Lemma wp_bSortConc (X : cells) n v (sn : Z) : (forall i, reg (rng 0 n) i -> X i) ->
  2 * (maxRec + 1) <= n + 1 -> n < top -> 11 * n + 29 < 20 * wq -> 1 < sn ->
  (Z.to_nat (Z.log2 (n + 1) + 2) <= Dm)%nat ->
  wp (Z.to_nat (Z.log2 (n + 1) + 2)) (QM (fun _ _ => True))
    (Z.to_nat (cSort (n + 1) + 9)) (er (lswSortConc lt cap tn meanI n)) (Gst X X v MInit sn).
Proof.
  intros HX Hs Hcap Hb Hsn HDm. rewrite lswSortConc_unfold. set (s := rng 0 n) in *.
  assert (C1 := cSort_pos (n + 1)). assert (L0 := Z.log2_nonneg (n + 1)).
  cbn [erase]. apply (wp_makesv bbody W _ _ _ _ _ (fun _ => True)); [lia|reflexivity|exact Hsn| |].
  { apply (lmany_of tn HIns HRec s); [unfold s, rng; simpl; lia|exact HX]. }
  set (a0 := Act (T := unit) (Some (fun _ => True)) (fun _ => True) false true None).
  assert (E1 : n - 0 + 1 = n + 1) by lia.
  cbn [erase]. apply wp_bind. eapply wp_more; [apply (wp_bMainLoop (n + 1) 0 n) with (a := a0);
    [lia|lia|lia|exact Hcap|exact Hb| |reflexivity|rewrite E1; exact HDm]|rewrite E1; lia|rewrite E1; lia|].
  { split; [reflexivity|]. split; [reflexivity|]. split; [split; [split; reflexivity|intro; exact I]|].
    split; [auto|]. cbn [rng len]; lia. }
  cbv beta. intros [lo hi] m g1 Hm (Hl1 & Hl2 & (a1 & Hinv) & Hc). cbn [fst snd] in *.
  destruct Hinv as (Hmd & Hmain & Hloose & Hdom & Hlen).
  cbn [rng len] in Hlen.
  assert (C2 := cSort_pos (hi - lo + 1)). assert (L2 := Z.log2_nonneg (hi - lo + 1)).
  assert (L3 : Z.log2 (hi - lo + 1) <= Z.log2 (n + 1)) by (apply Z.log2_le_mono; lia).
  cbn [erase]. apply wp_calln; [lia|lia|unfold live; rewrite Hmd; exact I|]. ub. cbn [lswBody].
  eapply wp_apply; [apply (wp_blong lo hi g1 a1); [lia|lia|lia|lia|exact Hmd|exact Hloose|exact Hdom|lia]
    |lia|lia|].
  cbv beta. intros _ m2 g2 (a2 & Em & Eam & [Hi HP] & HD) Hm2. split; [lia|].
  cbn [erase]. eapply wp_adddec; [lia|exact Em|apply Hi|apply Hi|intros w _; apply HP|].
  intros z Hz. unfold signed_off. rewrite Eam, Hmain. destruct (Z.eqb_spec z 0); cbn [erase].
  - apply wp_ret. cbn. auto.
  - eapply wp_recvwait; [lia|reflexivity|]. intros _. cbn [erase]. apply wp_ret. cbn. auto.
Qed.

Lemma sq_seqPart N : let n := N - 1 in 0 <= N -> N <= top -> 11 * N + 18 < 20 * wq ->
  sq (Z.to_nat (Z.log2 N + 2)) (fun _ _ => True) (Z.to_nat (cSort N + 8))
    (if maxRec <=? n then Call (LLong 0 n false) (Ret tt)
     else if maxIns <=? n then Call (LShort 0 n) (Ret tt)
     else if 0 <? n then lswInsertion lt cap 0 n else Ret tt).
Proof.
  intros n H0 Hcap Hb. assert (En : n + 1 = N) by (unfold n; lia). assert (En2 : n - 0 + 1 = N) by lia.
  assert (C1 := cSort_pos N). assert (L0 := Z.log2_nonneg N).
  destruct (Z.leb_spec maxRec n) as [C|C].
  + apply sq_calln; [lia|lia|]. cbn [lswBody]. rewrite llong_unfold.
    eapply (sq_apply _ _ (fun _ => True)); [apply (sq_long_gen (n - 0 + 1) 0 n); lia|rewrite En2; lia|rewrite En2; lia|].
    rewrite En2. intros _ k _ Hk. split; [lia|]. apply sq_ret. exact I.
  + destruct (Z.ltb_spec 0 n) as [C3|C3].
    * assert (G := sq_small 0 n ltac:(lia) ltac:(lia) ltac:(lia) ltac:(lia)).
      rewrite Z.sub_0_r in G.
      eapply (sq_apply _ _ (fun _ => True)); [exact G|rewrite En; lia|rewrite En; lia|]. auto.
    * destruct (Z.leb_spec maxIns n); [lia|]. apply sq_ret. exact I.
Qed.

Lemma wp_bSort (X : cells) N v sn0 md0 : (forall i, reg (Slice 0 N) i -> X i) ->
  0 <= N -> N <= top -> 11 * N + 18 < 20 * wq ->
  md0 = MInit \/ (md0 = MSeq /\ N < 2 * (maxRec + 1)) ->
  (Z.to_nat (Z.log2 N + 2) <= Dm)%nat ->
  wp (Z.to_nat (Z.log2 N + 2)) (QM (fun _ _ => True))
    (Z.to_nat (cSort N + 12)) (er (lswSort lt cap tn meanI N)) (Gst X X v md0 sn0).
Proof.
  intros HX H0 Hcap Hb Hmd HDm. unfold lswSort. rewrite iw_small by lia. cbv zeta.
  set (n := N - 1). assert (En : n + 1 = N) by (unfold n; lia).
  assert (Er : rng 0 n = Slice 0 N) by (unfold rng; f_equal; lia).
  assert (Hlive : match md0 with MSeq | MInit => True | _ => False end) by (destruct Hmd as [->|[-> _]]; exact I).
  assert (C1 := cSort_pos N). assert (L0 := Z.log2_nonneg N).
  assert (Hseq : forall sn m, (Z.to_nat (cSort N + 8) <= m)%nat -> wp (Z.to_nat (Z.log2 N + 2)) (QM (fun _ _ => True))
    m (er (if maxRec <=? n then Call (LLong 0 n false) (Ret tt)
       else if maxIns <=? n then Call (LShort 0 n) (Ret tt)
       else if 0 <? n then lswInsertion lt cap 0 n else Ret tt))
      (Gst X X v md0 sn)).
  { intros sn m Hm. eapply wp_sq; [apply sq_seqPart; [exact H0|lia|lia]|unfold live; cbn [md]; destruct md0; tauto|lia|exact Hm|].
    intros [] k x _ _. unfold QM. cbn [md setseen]. destruct md0; try contradiction; auto. }
  cbn [erase]. apply wp_bind. rewrite (lswConc_plain tn HIns HRec HRec2). destruct (Z.leb_spec n (2 * maxRec)) as [C|C]; cbn [erase].
  - apply wp_ret. apply Hseq. lia.
  - destruct Hmd as [->|[_ Hmd]]; [|lia].
    apply wp_loadmax; [lia|exact I|]. intros mg Hmg. cbn [erase]. apply wp_ret. cbn [setseen dom rd val md seen].
    destruct (Z.leb_spec mg 1) as [Cm|Cm].
    + apply Hseq. lia.
    + eapply wp_more; [apply (wp_bSortConc X n v mg); [rewrite Er; exact HX|lia|lia|lia|exact Cm|rewrite En; exact HDm]
        |rewrite En; lia|rewrite En; lia|].
      rewrite En. intros [] m g' _ Hq. exact Hq.
Qed.

End Blind.
