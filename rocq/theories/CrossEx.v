(** * Examples for [Cross.v] *)

From Coq Require Import List ZArith Lia Bool Permutation.
From Verif Require Import Lang Kinds Typed Trace Spec Lsw Calls TraceFacts Witness Examples Cross.
Import ListNotations.
Open Scope Z_scope.

Lemma by_cells (s : slice) (f : Z -> bool) : 0 <= off s -> 0 <= len s ->
  forallb (fun k => f (off s + Z.of_nat k)) (seq 0 (Z.to_nat (len s))) = true -> forall i, cellsOf s i -> f i = true.
Proof.
  intros Ho Hl H i Hi. rewrite forallb_forall in H. unfold cellsOf in Hi. specialize (H (Z.to_nat (i - off s))).
  replace (off s + Z.of_nat (Z.to_nat (i - off s))) with i in H by lia. apply H. apply in_seq. lia.
Qed.

(** The 50 elements of [mixMem], float32 with NaNs among them, and float64 that are ordered alike: different numbers, and a
    different NaN. *)
Definition wideMem (i : Z) : Z :=
  let b := mixMem i in if nan32b b then 18444492273895866368 else if b <? 2 ^ 31 then b else b - 2 ^ 31 + 2 ^ 63.

Lemma wide_typed : typedSlice plat64 TF8 wideMem f32Slice.
Proof. apply (@typed_by TF8 wideMem f32Slice (inRange 64)); [simpl; lia|intros x H; apply inRange_spec in H; exact H|vm_compute; reflexivity]. Qed.

Lemma nan32_iff b : nan TF4 b <-> nan32b b = true.
Proof.
  cbn [nan]. unfold fNaN, nan32b, fExp, fMan. rewrite andb_true_iff, negb_true_iff, Z.eqb_eq, Z.eqb_neq.
  change (2 ^ 8 - 1) with 255. reflexivity.
Qed.
Lemma nan64_iff b : nan TF8 b <-> nan64b b = true.
Proof.
  cbn [nan]. unfold fNaN, nan64b, fExp, fMan. rewrite andb_true_iff, negb_true_iff, Z.eqb_eq, Z.eqb_neq.
  change (2 ^ 11 - 1) with 2047. reflexivity.
Qed.

Definition alikeAt (i j : Z) : bool :=
  Bool.eqb (nan32b (mixMem i)) (nan64b (wideMem i)) &&
  (nan32b (mixMem i) || nan32b (mixMem j) || Bool.eqb (fVal 23 8 (mixMem i) <=? fVal 23 8 (mixMem j)) (fVal 52 11 (wideMem i) <=? fVal 52 11 (wideMem j))).

Lemma alikeAt_spec i j : alikeAt i j = true -> (nan TF4 (mixMem i) <-> nan TF8 (wideMem i)) /\
  (~ nan TF4 (mixMem i) -> ~ nan TF4 (mixMem j) -> (le TF4 (mixMem i) (mixMem j) <-> le TF8 (wideMem i) (wideMem j))).
Proof.
  intro A. rewrite !nan32_iff, nan64_iff. unfold alikeAt in A. apply andb_true_iff in A. destruct A as [A B]. apply eqb_prop in A. rewrite A. split; [reflexivity|].
  intros N1 N2. rewrite <- A in N1. apply not_true_iff_false in N1, N2. rewrite N1, N2 in B. cbn [orb] in B. apply eqb_prop in B.
  unfold le. rewrite <- (Z.leb_le (fVal 23 8 _)), <- (Z.leb_le (fVal 52 11 _)), B. reflexivity.
Qed.

Lemma wide_alike : orderedAlike TF4 TF8 mixMem wideMem f32Slice.
Proof.
  assert (A : forall i, cellsOf f32Slice i -> forallb (fun k => alikeAt i (0 + Z.of_nat k)) (seq 0 50) = true).
  { apply (by_cells f32Slice (fun i => forallb (fun k => alikeAt i (0 + Z.of_nat k)) (seq 0 50))); [discriminate|discriminate|vm_compute; reflexivity]. }
  intros i j Hi Hj. apply alikeAt_spec. apply (by_cells f32Slice (alikeAt i)); [discriminate|discriminate|exact (A i Hi)|exact Hj].
Qed.

Lemma mix_traced : exists tr s, traced mixCall 3 tr s /\ returned s tt /\ (2 <= length (thr s))%nat.
Proof.
  destruct ex_mix_run as (k & s & H & R & L). apply reach_traced in H. destruct H as (tr & _ & H). exists tr, s. auto.
Qed.

(** The 60 numbers of [exMem], int64, as int32. *)
Definition narrowMem (i : Z) : Z := exMem i mod 2 ^ 32.

Lemma narrow_typed : typedSlice plat64 TI4 narrowMem exSlice.
Proof. apply (@typed_by TI4 narrowMem exSlice (inRange 32)); [simpl; lia|intros x H; apply inRange_spec in H; exact H|vm_compute; reflexivity]. Qed.

Lemma narrow_same : forall i, cellsOf exSlice i -> numberOf TI8 (exMem i) = numberOf TI4 (narrowMem i).
Proof.
  intros i Hi. apply Z.eqb_eq. revert i Hi. apply (by_cells exSlice (fun i => numberOf TI8 (exMem i) =? numberOf TI4 (narrowMem i))); [discriminate|discriminate|vm_compute; reflexivity].
Qed.

Lemma narrow_means : meansAgree plat64 TI8 TI4.
Proof. intros x y _ _ _ _. reflexivity. Qed.

Lemma int_traced : exists tr s, traced exCall 3 tr s /\ returned s tt /\ length (thr s) = 2%nat /\ contents (mem (sh s)) exSlice = exSorted.
Proof.
  destruct ex_int_run as (k & s & H & R & L & _ & E). apply reach_traced in H. destruct H as (tr & _ & H). exists tr, s. auto.
Qed.
