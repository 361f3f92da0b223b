(** * Executions that contradict the documentation or the naive reading of it *)

From Coq Require Import List ZArith Lia Bool Permutation Sorted.
From Verif Require Import Lang Scalar ScalarFacts Typed Kinds Spec KindsFacts Lsw Calls Witness.
Import ListNotations.
Open Scope Z_scope.

(** ** Panics *)

Definition isPanic {P T A} (c : cmd P T A) : bool := match view c with HPanic => true | _ => false end.

Lemma isPanic_panicked {P T} (s : st P T unit) : isPanic (main s) = true -> panicked s.
Proof. intro H. left. unfold isPanic in H. destruct (view (main s)); try discriminate. reflexivity. Qed.

Definition zlt (x y : Z) : bool := x <? y.

Lemma drive_panic {T} (C : call T) M mg0 f : 0 <= mg0 <= M ->
  isPanic (main (drive (cProcs C) f (start (cProg C) (cInit C) mg0))) = true ->
  exists k s, reach C M k s /\ panicked s.
Proof.
  intros HM H. destruct (drive_reach C M mg0 f HM) as [k Hk]. eexists k, _. split; [exact Hk|].
  apply isPanic_panicked. exact H.
Qed.

(** Sort(math.MinInt64, lsw): n-- wraps around to MaxInt64. *)
Definition minIntCall (pl : plat) : call Z := lswCall pl shipped zlt 100 (- intSize pl) (fun i => i).

Lemma minInt_sort pl : In pl [plat32; plat64] -> exists k s, reach (minIntCall pl) 1 k s /\ panicked s.
Proof.
  intros [<-|[<-|[]]]; [apply (drive_panic (minIntCall plat32) 1 1 100)|apply (drive_panic (minIntCall plat64) 1 1 100)];
    [lia| |lia|]; vm_compute; reflexivity.
Qed.

(** IsSorted of the smallest int, the same. *)
Lemma minInt_check pl : In pl [plat32; plat64] -> exists k s,
  exec (lswBody (Wd := pword pl) zlt 100 shipped (mI pl)) 1 (cellsOf (Slice 0 0)) k
    (start (lswIsSorted (Wd := pword pl) zlt 100 (- intSize pl)) (fun i => i) 1) s /\ panicked s.
Proof.
  intro H. destruct (drive_exec (lswBody (Wd := pword pl) zlt 100 shipped (mI pl)) 1 (cellsOf (Slice 0 0)) 100
    (start (lswIsSorted (Wd := pword pl) zlt 100 (- intSize pl)) (fun i => i) 1)) as [k Hk].
  eexists k, _. split; [exact Hk|]. left.
  assert (E : isPanic (main (drive (lswBody (Wd := pword pl) zlt 100 shipped (mI pl)) 100
    (start (lswIsSorted (Wd := pword pl) zlt 100 (- intSize pl)) (fun i => i) 1))) = true)
    by (destruct H as [<-|[<-|[]]]; vm_compute; reflexivity).
  unfold isPanic in E. destruct (view _); try discriminate. reflexivity.
Qed.

(** A tuning accepted by init for which 2*(MaxLenRec+1) overflows. *)
Definition huge (pl : plat) : tuning := Tuning 60 30 (intSize pl / 2 - 1) 300.
Definition hugeCall (pl : plat) : call Z := typedCall pl (huge pl) 1 TI8 (Slice 0 0) (fun i => 0).

Lemma huge_init pl : In pl [plat32; plat64] -> initOk pl shippedMaxGor (huge pl) = true.
Proof. intros [<-|[<-|[]]]; reflexivity. Qed.

Lemma huge_panic pl : In pl [plat32; plat64] -> exists k s, reach (hugeCall pl) 3 k s /\ panicked s.
Proof.
  intros [<-|[<-|[]]]; [apply (drive_panic (hugeCall plat32) 3 3 100)|apply (drive_panic (hugeCall plat64) 3 3 100)];
    [lia| |lia|]; vm_compute; reflexivity.
Qed.

(** ** Stability with NaNs *)

Definition nan32 : Z := 2143289344.       (* 0x7fc00000 *)
Definition negZero32 : Z := 2147483648.   (* 0x80000000 *)
Definition stabMem : Z -> Z := memOf 0 0 [nan32; 0; negZero32].
Definition stabCall : call Z := typedCall plat64 shipped 1 TF4 (Slice 0 3) stabMem.

Lemma nan_unstable : exists k s, reach stabCall 1 k s /\ returned s tt /\
  contents (mem (sh s)) (Slice 0 3) = [negZero32; 0; nan32] /\
  ~ stable TF4 (contents stabMem (Slice 0 3)) (contents (mem (sh s)) (Slice 0 3)).
Proof.
  destruct (drive_reach stabCall 1 1 300 ltac:(lia)) as [k Hk]. eexists k, _. split; [exact Hk|].
  match goal with |- _ /\ ?X = _ /\ _ => assert (E : X = [negZero32; 0; nan32]) by (vm_compute; reflexivity) end.
  split; [apply isRet_returned; vm_compute; reflexivity|]. split; [exact E|]. rewrite E. intro H.
  specialize (H (fun b : Z => (b =? 0) || (b =? negZero32))). discriminate H.
  intros y z Hy Hz. apply orb_true_iff in Hy, Hz.
  destruct Hy as [Hy|Hy], Hz as [Hz|Hz]; apply Z.eqb_eq in Hy, Hz; subst; vm_compute; discriminate.
Qed.

(** ** The goroutine quota *)

Definition works {P T A} (c : cmd P T A) : bool :=
  match view c with HRead _ _ => true | HWrite _ _ _ => true | _ => false end.

Lemma works_busy {P T A} (c : cmd P T A) : works c = true -> ~ quiet c.
Proof.
  unfold works. intros H Q. destruct Q as [c a E|c c' E|c v k E|c k E]; rewrite E in H; discriminate.
Qed.

Definition quotaCall : call Z := typedCall plat64 tiny 1 TU4 (Slice 0 200) (fun i => i).

Fixpoint runUntil {P T R} (b : P -> cmd P T unit) (n : nat) (ch : choice) (fuel : nat) (s : st P T R) : st P T R :=
  match fuel with
  | O => s
  | S f => if Nat.eqb (length (thr s)) n then s
           else match run1 b ch s with Some s' => runUntil b n ch f s' | None => s end
  end.

Lemma runUntil_fexec {P T R} (b : P -> cmd P T unit) M Rg n ch f : forall s : st P T R,
  exists k, fexec b M Rg k s (runUntil b n ch f s).
Proof.
  induction f as [|f IH]; intro s; cbn [runUntil]; [exists O; constructor|].
  destruct (Nat.eqb (length (thr s)) n); [exists O; constructor|].
  destruct (run1 b ch s) as [s1|] eqn:E; [|exists O; constructor].
  destruct (IH s1) as [k Hk]. exists (k + 1)%nat. refine (fexec_trans b M Rg 1 s s1 k _ _ Hk).
  eapply fexec_prog; [constructor|]. eapply run1_istep; exact E.
Qed.

Lemma runUntil_exec {P T R} (b : P -> cmd P T unit) M Rg n ch f (s : st P T R) :
  exists k, exec b M Rg k s (runUntil b n ch f s).
Proof. destruct (runUntil_fexec b M Rg n ch f s) as [k Hk]. exists k. apply fexec_exec, Hk. Qed.

(** The first goroutine to partition is done; the caller starts to sort the shorter half in
    a goroutine and partitions the longer one with another; the second goroutine finds the
    counter at 2 and starts a third. *)
Definition q1 := run_while (cProcs quotaCall) 2000 CMain (start (cProg quotaCall) (cInit quotaCall) 3).
Definition q2 := run_while (cProcs quotaCall) 2000 (CThr 0) q1.
Definition q3 := run_while (cProcs quotaCall) 1 (CToMain 0) q2.
Definition q4 := runUntil (cProcs quotaCall) 3 CMain 2000 q3.
Definition q5 := runUntil (cProcs quotaCall) 4 (CThr 1) 2000 q4.
Definition q6 := run_while (cProcs quotaCall) 2 CMain q5.
Definition q7 := run_while (cProcs quotaCall) 2 (CThr 1) q6.
Definition q8 := run_while (cProcs quotaCall) 1 (CThr 2) q7.
Definition q9 := run_while (cProcs quotaCall) 3 (CThr 3) q8.

Lemma q9_works : works (main q9) = true /\ map works (thr q9) = [false; true; true; true].
Proof. split; vm_compute; reflexivity. Qed.

Lemma q9_reach : exists k, fresh quotaCall 3 k q9.
Proof.
  assert (G : forall k s, fresh quotaCall 3 k s -> forall f ch, exists k', fresh quotaCall 3 k' (run_while (cProcs quotaCall) f ch s)).
  { intros k s (mg & Hmg & H) f ch. destruct (run_while_fexec (cProcs quotaCall) 3 (cCells quotaCall) f ch s) as [j Hj].
    exists (j + k)%nat, mg. split; [exact Hmg|]. eapply fexec_trans; eauto. }
  assert (G' : forall k s, fresh quotaCall 3 k s -> forall n f ch, exists k', fresh quotaCall 3 k' (runUntil (cProcs quotaCall) n ch f s)).
  { intros k s (mg & Hmg & H) n f ch. destruct (runUntil_fexec (cProcs quotaCall) 3 (cCells quotaCall) n ch f s) as [j Hj].
    exists (j + k)%nat, mg. split; [exact Hmg|]. eapply fexec_trans; eauto. }
  assert (R0 : fresh quotaCall 3 0 (start (cProg quotaCall) (cInit quotaCall) 3)) by (exists 3; split; [lia|constructor]).
  destruct (G _ _ R0 2000%nat CMain) as [k1 R1]. destruct (G _ _ R1 2000%nat (CThr 0)) as [k2 R2].
  destruct (G _ _ R2 1%nat (CToMain 0)) as [k3 R3]. destruct (G' _ _ R3 3%nat 2000%nat CMain) as [k4 R4].
  destruct (G' _ _ R4 4%nat 2000%nat (CThr 1)) as [k5 R5]. destruct (G _ _ R5 2%nat CMain) as [k6 R6].
  destruct (G _ _ R6 2%nat (CThr 1)) as [k7 R7]. destruct (G _ _ R7 1%nat (CThr 2)) as [k8 R8].
  destruct (G _ _ R8 3%nat (CThr 3)) as [k9 R9]. exists k9. exact R9.
Qed.

Lemma quota_exceeded : exists k s idx, fresh quotaCall 3 k s /\ NoDup idx /\ length idx = 4%nat /\
  forall i, In i idx -> busy s i.
Proof.
  destruct q9_reach as [k Hk]. exists k, q9, [0; 2; 3; 4]%nat. split; [exact Hk|].
  split; [repeat constructor; simpl; intuition discriminate|]. split; [reflexivity|].
  destruct q9_works as [Hm Ht].
  assert (N : forall j, nth_error (map works (thr q9)) j = Some true -> exists c, nth_error (thr q9) j = Some c /\ ~ quiet c).
  { intros j H. rewrite nth_error_map in H. destruct (nth_error (thr q9) j) as [c|]; [|discriminate].
    exists c. split; [reflexivity|]. apply works_busy. inversion H. reflexivity. }
  intros i [<-|[<-|[<-|[<-|[]]]]]; [apply works_busy; exact Hm| | |]; apply N; rewrite Ht; reflexivity.
Qed.

(** *** Outdated reads of the counter

    MaxGor = 2: a goroutine that still sees the counter at 0 (its value before the call; an
    outdated 1 does as well) starts another one, and three are at work. *)
Definition staleThr {P T R} (i : nat) (z : Z) (s : st P T R) : option (st P T R) :=
  match split_at i (thr s) with
  | Some (l1, c, l2) => match view c with HLoadGor k => Some (St (main s) (l1 ++ k z :: l2) (sh s)) | _ => None end
  | None => None
  end.

Lemma staleThr_pstep {P T R} (b : P -> cmd P T unit) i z (s s' : st P T R) : staleThr i z s = Some s' -> pstep b s s'.
Proof.
  unfold staleThr. destruct s as [m ts sh0]. cbn [main thr sh].
  destruct (split_at i ts) as [[[l1 c] l2]|] eqn:E; [|discriminate]. apply split_at_app in E. subst ts.
  destruct (view c) eqn:Ev; try discriminate. intro H; inversion H; subst. apply step_stale_thr. exact Ev.
Qed.

Fixpoint staleUntil {P T R} (b : P -> cmd P T unit) (n i : nat) (z : Z) (fuel : nat) (s : st P T R) : st P T R :=
  match fuel with
  | O => s
  | S f => if Nat.eqb (length (thr s)) n then s
           else match staleThr i z s with
                | Some s' => staleUntil b n i z f s'
                | None => match run1 b (CThr i) s with Some s' => staleUntil b n i z f s' | None => s end
                end
  end.

Lemma staleUntil_exec {P T R} (b : P -> cmd P T unit) M Rg n i z f : forall s : st P T R,
  exists k, exec b M Rg k s (staleUntil b n i z f s).
Proof.
  induction f as [|f IH]; intro s; cbn [staleUntil]; [exists O; constructor|].
  destruct (Nat.eqb (length (thr s)) n); [exists O; constructor|].
  assert (G : forall s1, pstep b s s1 -> exists k, exec b M Rg k s (staleUntil b n i z f s1)).
  { intros s1 Hs. destruct (IH s1) as [k Hk]. exists (k + 1)%nat. refine (exec_trans b M Rg 1 s s1 k _ _ Hk).
    eapply exec_prog; [constructor|exact Hs]. }
  destruct (staleThr i z s) as [s1|] eqn:E; [apply G; eapply staleThr_pstep; exact E|].
  destruct (run1 b (CThr i) s) as [s1|] eqn:E1; [|exists O; constructor].
  apply G. eapply run1_pstep; exact E1.
Qed.

Definition r1 := run_while (cProcs quotaCall) 2000 CMain (start (cProg quotaCall) (cInit quotaCall) 2).
Definition r2 := run_while (cProcs quotaCall) 2000 (CThr 0) r1.
Definition r3 := run_while (cProcs quotaCall) 1 (CToMain 0) r2.
Definition r4 := runUntil (cProcs quotaCall) 2 CMain 2000 r3.
Definition r5 := staleUntil (cProcs quotaCall) 3 1 1 2000 r4.
Definition r6 := run_while (cProcs quotaCall) 5 CMain r5.
Definition r7 := run_while (cProcs quotaCall) 2 (CThr 1) r6.
Definition r8 := run_while (cProcs quotaCall) 3 (CThr 2) r7.

Lemma r8_works : works (main r8) = true /\ map works (thr r8) = [false; true; true].
Proof. split; vm_compute; reflexivity. Qed.

Lemma r8_reach : exists k, reach quotaCall 2 k r8.
Proof.
  assert (G : forall k s, reach quotaCall 2 k s -> forall f ch, exists k', reach quotaCall 2 k' (run_while (cProcs quotaCall) f ch s)).
  { intros k s (mg & Hmg & H) f ch. destruct (run_while_exec (cProcs quotaCall) 2 (cCells quotaCall) f ch s) as [j Hj].
    exists (j + k)%nat, mg. split; [exact Hmg|]. eapply exec_trans; eauto. }
  assert (R0 : reach quotaCall 2 0 (start (cProg quotaCall) (cInit quotaCall) 2)) by (exists 2; split; [lia|constructor]).
  destruct (G _ _ R0 2000%nat CMain) as [k1 R1]. destruct (G _ _ R1 2000%nat (CThr 0)) as [k2 R2].
  destruct (G _ _ R2 1%nat (CToMain 0)) as [k3 R3].
  assert (R4 : exists k4, reach quotaCall 2 k4 r4).
  { destruct R3 as (mg & Hmg & H). destruct (runUntil_exec (cProcs quotaCall) 2 (cCells quotaCall) 2 CMain 2000 r3) as [j Hj].
    exists (j + k3)%nat, mg. split; [exact Hmg|]. eapply exec_trans; eauto. }
  destruct R4 as [k4 R4].
  assert (R5 : exists k5, reach quotaCall 2 k5 r5).
  { destruct R4 as (mg & Hmg & H). destruct (staleUntil_exec (cProcs quotaCall) 2 (cCells quotaCall) 3 1 1 2000 r4) as [j Hj].
    exists (j + k4)%nat, mg. split; [exact Hmg|]. eapply exec_trans; eauto. }
  destruct R5 as [k5 R5].
  destruct (G _ _ R5 5%nat CMain) as [k6 R6]. destruct (G _ _ R6 2%nat (CThr 1)) as [k7 R7].
  destruct (G _ _ R7 3%nat (CThr 2)) as [k8 R8]. exists k8. exact R8.
Qed.

Lemma quota_stale : exists k s idx, reach quotaCall 2 k s /\ NoDup idx /\ length idx = 3%nat /\
  forall i, In i idx -> busy s i.
Proof.
  destruct r8_reach as [k Hk]. exists k, r8, [0; 2; 3]%nat. split; [exact Hk|].
  split; [repeat constructor; simpl; intuition discriminate|]. split; [reflexivity|].
  destruct r8_works as [Hm Ht].
  assert (N : forall j, nth_error (map works (thr r8)) j = Some true -> exists c, nth_error (thr r8) j = Some c /\ ~ quiet c).
  { intros j H. rewrite nth_error_map in H. destruct (nth_error (thr r8) j) as [c|]; [|discriminate].
    exists c. split; [reflexivity|]. apply works_busy. inversion H. reflexivity. }
  intros i [<-|[<-|[<-|[]]]]; [apply works_busy; exact Hm| |]; apply N; rewrite Ht; reflexivity.
Qed.

(** ** A comparison that is not irreflexive *)

(** x <= y in place of x < y. *)
Definition zle (x y : Z) : bool := x <=? y.

(** 14 numbers, one goroutine: the element in the pivot's cell is "less" than the pivot, and is
    moved away in the middle of the partitioning. *)
Definition leMem : Z -> Z := memOf 0 0 [0; 3; 1; 4; 2; 0; 3; 1; 4; 2; 0; 3; 1; 4].
Definition leCall : call Z := lswCall plat64 tiny zle 14 14 leMem.

Lemma le_unsorted : exists k s, reach leCall 1 k s /\ returned s tt /\
  contents (mem (sh s)) (Slice 0 14) = [0; 0; 0; 1; 1; 2; 3; 1; 2; 3; 3; 4; 4; 4].
Proof.
  destruct (drive_reach leCall 1 1 5000 ltac:(lia)) as [k Hk]. eexists k, _. split; [exact Hk|].
  split; [apply isRet_returned; vm_compute; reflexivity|vm_compute; reflexivity].
Qed.

(** 60 equal numbers, two goroutines: the caller reads the pivot while the other goroutine
    exchanges it with its neighbour. *)
Definition leCall2 : call Z := lswCall plat64 tiny zle 60 60 (fun _ => 5).
Definition le1 := runUntil (cProcs leCall2) 1 CMain 2000 (start (cProg leCall2) (cInit leCall2) 2).
Definition le2 := run_while (cProcs leCall2) 2 CMain le1.
Definition le3 := run_while (cProcs leCall2) 151 (CThr 0) le2.

Lemma le3_accesses : accesses le3 = [Some (30, false); Some (30, true)].
Proof. vm_compute. reflexivity. Qed.

Lemma le3_reach : exists k, reach leCall2 2 k le3.
Proof.
  assert (G : forall k s, reach leCall2 2 k s -> forall f ch, exists k', reach leCall2 2 k' (run_while (cProcs leCall2) f ch s)).
  { intros k s (mg & Hmg & H) f ch. destruct (run_while_exec (cProcs leCall2) 2 (cCells leCall2) f ch s) as [j Hj].
    exists (j + k)%nat, mg. split; [exact Hmg|]. eapply exec_trans; eauto. }
  assert (G' : forall k s, reach leCall2 2 k s -> forall n f ch, exists k', reach leCall2 2 k' (runUntil (cProcs leCall2) n ch f s)).
  { intros k s (mg & Hmg & H) n f ch. destruct (runUntil_exec (cProcs leCall2) 2 (cCells leCall2) n ch f s) as [j Hj].
    exists (j + k)%nat, mg. split; [exact Hmg|]. eapply exec_trans; eauto. }
  assert (R0 : reach leCall2 2 0 (start (cProg leCall2) (cInit leCall2) 2)) by (exists 2; split; [lia|constructor]).
  destruct (G' _ _ R0 1%nat 2000%nat CMain) as [k1 R1]. destruct (G _ _ R1 2%nat CMain) as [k2 R2].
  destruct (G _ _ R2 151%nat (CThr 0)) as [k3 R3]. exists k3. exact R3.
Qed.

Lemma le_race : exists k s, reach leCall2 2 k s /\ race s.
Proof.
  destruct le3_reach as [k Hk]. exists k, le3. split; [exact Hk|].
  exists 0%nat, 1%nat, 30, false, true. rewrite le3_accesses. split; [discriminate|]. auto.
Qed.
