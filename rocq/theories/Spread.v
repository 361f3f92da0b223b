(** * How many goroutines a call occupies: an execution attaining the bound of C43 *)

From Coq Require Import List ZArith Lia Bool.
From Verif Require Import Lang Scalar Typed Kinds Spec KindsFacts Calls Witness Refute Examples.
Import ListNotations.
Open Scope Z_scope.

(** 92 = 4 * (MaxLenRec + 1) elements, already in order; MaxGor is 9. *)
Definition spreadCall : call Z := typedCall plat64 tiny 1 TU4 (Slice 0 92) (fun i => i).

Lemma ex_spread_call : sortCall plat64 tiny spreadCall.
Proof.
  refine (call_typed plat64 tiny TU4 1 (Slice 0 92) (fun i => i) _ (or_introl eq_refl)).
  apply (@typed_by TU4 (fun i => i) (Slice 0 92) (inRange 32)); [simpl; lia|intros x H; apply inRange_spec in H; exact H|vm_compute; reflexivity].
Qed.

Definition sp1 := run_while (cProcs spreadCall) 2000 CMain (start (cProg spreadCall) (cInit spreadCall) 9).
Definition sp2 := run_while (cProcs spreadCall) 2000 (CThr 0) sp1.
Definition sp3 := run_while (cProcs spreadCall) 1 (CToMain 0) sp2.
Definition sp4 := runUntil (cProcs spreadCall) 3 CMain 2000 sp3.
Definition sp5 := runUntil (cProcs spreadCall) 4 (CThr 1) 2000 sp4.
Definition sp6 := run_while (cProcs spreadCall) 2 CMain sp5.
Definition sp7 := run_while (cProcs spreadCall) 2 (CThr 1) sp6.
Definition sp8 := run_while (cProcs spreadCall) 1 (CThr 2) sp7.
Definition sp9 := run_while (cProcs spreadCall) 3 (CThr 3) sp8.

Lemma sp9_works : works (main sp9) = true /\ map works (thr sp9) = [false; true; true; true].
Proof. split; vm_compute; reflexivity. Qed.

Lemma sp9_reach : exists k, reach spreadCall 9 k sp9.
Proof.
  assert (G : forall k s, reach spreadCall 9 k s -> forall f ch, exists k', reach spreadCall 9 k' (run_while (cProcs spreadCall) f ch s)).
  { intros k s (mg & Hmg & H) f ch. destruct (run_while_fexec (cProcs spreadCall) 9 (cCells spreadCall) f ch s) as [j Hj].
    apply fexec_exec in Hj. exists (j + k)%nat, mg. split; [exact Hmg|]. eapply exec_trans; eauto. }
  assert (G' : forall k s, reach spreadCall 9 k s -> forall n f ch, exists k', reach spreadCall 9 k' (runUntil (cProcs spreadCall) n ch f s)).
  { intros k s (mg & Hmg & H) n f ch. destruct (runUntil_exec (cProcs spreadCall) 9 (cCells spreadCall) n ch f s) as [j Hj].
    exists (j + k)%nat, mg. split; [exact Hmg|]. eapply exec_trans; eauto. }
  assert (R0 : reach spreadCall 9 0 (start (cProg spreadCall) (cInit spreadCall) 9)) by (exists 9; split; [lia|constructor]).
  destruct (G _ _ R0 2000%nat CMain) as [k1 R1]. destruct (G _ _ R1 2000%nat (CThr 0)) as [k2 R2].
  destruct (G _ _ R2 1%nat (CToMain 0)) as [k3 R3]. destruct (G' _ _ R3 3%nat 2000%nat CMain) as [k4 R4].
  destruct (G' _ _ R4 4%nat 2000%nat (CThr 1)) as [k5 R5]. destruct (G _ _ R5 2%nat CMain) as [k6 R6].
  destruct (G _ _ R6 2%nat (CThr 1)) as [k7 R7]. destruct (G _ _ R7 1%nat (CThr 2)) as [k8 R8].
  destruct (G _ _ R8 3%nat (CThr 3)) as [k9 R9]. exists k9. exact R9.
Qed.

Lemma spread_attained : exists k s idx, reach spreadCall 9 k s /\ NoDup idx /\ (forall i, In i idx -> busy s i) /\
  Z.of_nat (length idx) = cLen spreadCall / (maxLenRec tiny + 1) /\ length idx = 4%nat.
Proof.
  destruct sp9_reach as [k Hk]. exists k, sp9, [0; 2; 3; 4]%nat. split; [exact Hk|].
  split; [repeat constructor; simpl; intuition discriminate|]. split; [|split; reflexivity].
  destruct sp9_works as [Hm Ht].
  assert (N : forall j, nth_error (map works (thr sp9)) j = Some true -> exists c, nth_error (thr sp9) j = Some c /\ ~ quiet c).
  { intros j H. rewrite nth_error_map in H. destruct (nth_error (thr sp9) j) as [c|]; [|discriminate].
    exists c. split; [reflexivity|]. apply works_busy. inversion H. reflexivity. }
  intros i [<-|[<-|[<-|[<-|[]]]]]; [apply works_busy; exact Hm| | |]; apply N; rewrite Ht; reflexivity.
Qed.
