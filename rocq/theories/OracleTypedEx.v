(** * Concrete runs of SortSlice with the elements changed meanwhile *)

From Coq Require Import List ZArith Lia Bool Permutation Sorted.
From Verif Require Import Lang Scalar Typed Kinds Spec Calls Witness Refute Examples Oracle OracleEx.
Import ListNotations.
Open Scope Z_scope.

(** 60 uint64s; when the call is under way, someone replaces them all. *)
Definition swapCall : call Z := typedCall plat64 tiny 1 TU8 (Slice 0 60) (fun i => (i * 37) mod 60).

Lemma swap_run : exists k st, disturbed swapCall 3 k st /\ returned st tt /\ (1 <= length (thr st))%nat /\
  let l := contents (mem (sh st)) (Slice 0 60) in
  ~ StronglySorted (le TU8) l /\ ~ Permutation l (contents (cInit swapCall) (Slice 0 60)).
Proof.
  destruct (change swapCall 3 3 (Z.to_nat 600) 0 (fun i => (i * 7) mod 13) (Z.to_nat 30000) 0 ltac:(lia)) as [k H].
  eexists k, _. split; [exact H|]. clear H.
  split; [apply isRet_returned; vm_compute; reflexivity|]. split; [apply Nat.leb_le; vm_compute; reflexivity|].
  cbv zeta. split.
  - intro S.
    assert (G : forall l : list Z, StronglySorted (le TU8) l ->
      (fix go (l : list Z) := match l with x :: (y :: _) as t => (x <=? y) && go t | _ => true end) l = true).
    { induction 1 as [|x [|y l] Hs IH Hf]; [reflexivity|reflexivity|]. inversion Hf as [|? ? E Hr]; subst. rewrite (proj2 (Z.leb_le x y) E). exact IH. }
    apply G in S. vm_compute in S. discriminate.
  - intro H.
    assert (E : forall l l', Permutation l l' -> fold_right Z.add 0 l = fold_right Z.add 0 l').
    { induction 1; cbn [fold_right]; lia. }
    apply E in H. vm_compute in H. discriminate.
Qed.

Lemma swap_slice : goSlice plat64 (Slice 0 60) /\ typedSlice plat64 TU8 (cInit swapCall) (Slice 0 60).
Proof.
  assert (H : typedSlice plat64 TU8 (cInit swapCall) (Slice 0 60)).
  { apply (@typed_by TU8 (cInit swapCall) (Slice 0 60) (inRange 64)); [simpl; lia|intros x H; apply inRange_spec in H; exact H|vm_compute; reflexivity]. }
  split; [exact (proj1 H)|exact H].
Qed.
