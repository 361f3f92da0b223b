(** * Examples of calls on sorted collections *)

From Coq Require Import List ZArith Lia Bool Permutation Sorted Arith.
From Verif Require Import Lang Scalar ScalarFacts Typed Kinds Spec Lsw Calls KindsFacts TypedApi Guarantee Witness Refute Examples Many
  Spread CalmTop.
Import ListNotations.
Open Scope Z_scope.

Lemma bit_near b : nearMean (Plat b bitMean bitMean bitMean bitMean bitMean).
Proof. intros x y _ _ _. cbn [mI]. rewrite bitMean_floor. destruct (half (x + y)) as (h & -> & Hh). lia. Qed.

(** Sorted whole numbers. *)
Lemma sorted_u4 pl tn opt s m0 : typedSlice pl TU4 m0 s ->
  (forall i j, off s <= i -> i < j -> j < off s + len s -> m0 i <= m0 j) ->
  sortedCall pl tn (typedCall pl tn opt TU4 s m0).
Proof.
  intros Hty Hs. apply calm_typed; [exact Hty| |].
  - right; right. apply Forall_forall. intros x _. apply nonfloat_nan. reflexivity.
  - exists [], (contents m0 s), []. rewrite app_nil_r. cbn [app]. repeat split; auto.
    + apply Forall_forall. intros x _. apply nonfloat_nan. reflexivity.
    + rewrite contents_seg. apply ascending_sorted. exact Hs.
Qed.

Lemma ex_spread_sorted : sortedCall plat64 tiny spreadCall.
Proof.
  apply sorted_u4; [|intros; lia].
  apply (@typed_by TU4 (fun i => i) (Slice 0 92) (inRange 32)); [simpl; lia|intros x H; apply inRange_spec in H; exact H|vm_compute; reflexivity].
Qed.

(** It is sorted by several goroutines nevertheless; ... *)
Lemma ex_spread_run : exists k s, reach spreadCall 9 k s /\ returned s tt /\ (2 <= length (thr s))%nat.
Proof.
  destruct (rotate_reach spreadCall 9 9 (Z.to_nat 30000) 0 ltac:(lia)) as [k H].
  eexists k, _; split; [exact H|]. split; [apply isRet_returned; vm_compute; reflexivity|].
  apply Nat.leb_le; vm_compute; reflexivity.
Qed.

(** ... and Sort on pairs, by first components in descending order, with equal ones. *)
Definition stillMem (i : Z) : Z * Z := (- (i / 3), (i * 37) mod 61).
Definition stillCall : call (Z * Z) := lswCall plat64 tiny pairGt 100 92 stillMem.

Lemma ex_still_sorted : sortedCall plat64 tiny stillCall.
Proof.
  apply calm_lsw; [apply consistent_self, ex_pair_order|lia|vm_compute; reflexivity|].
  unfold noSmallerAfter. rewrite contents_seg. apply ascending_sorted. intros i j Hi Hij Hj.
  unfold pairGt, stillMem. cbn [fst]. apply Z.ltb_ge. assert (i / 3 <= j / 3) by (apply Z.div_le_mono; lia). lia.
Qed.

Lemma ex_still_run : exists k s, reach stillCall 9 k s /\ returned s tt /\ (2 <= length (thr s))%nat.
Proof.
  destruct (rotate_reach stillCall 9 9 (Z.to_nat 30000) 0 ltac:(lia)) as [k H].
  eexists k, _; split; [exact H|]. split; [apply isRet_returned; vm_compute; reflexivity|].
  apply Nat.leb_le; vm_compute; reflexivity.
Qed.

(** Floats with NaNs at the end. *)
Lemma ex_nan_sorted : exists m, sortedCall plat64 tiny (typedCall plat64 tiny 1 TF8 fSlice64 m) /\
  map nan64b (contents m fSlice64) = repeat false 51 ++ repeat true 9.
Proof.
  destruct ex_f64_last as (k & st & R & Hr & _ & E & _). exists (mem (sh st)). split; [|exact E].
  exact (again_typed plat64 tiny 1 TF8 fSlice64 fMem64 3 k st plat64_ok tiny_ok ex_f64_typed (or_introl eq_refl) R Hr).
Qed.

(** ** The rounding of the mean matters

    A mean that meets [platOk] but not [nearMean]: odd sums are rounded to the smaller argument. *)
Definition meanLow (x y : Z) : Z := if Z.even (x + y) then (x + y) / 2 else Z.min x y.
Definition platLow : plat := Plat 8 bitMean bitMean bitMean bitMean meanLow.

Lemma meanLow_ok : platOk platLow.
Proof.
  assert (B : forall x y, Z.min x y <= meanLow x y <= Z.max x y).
  { intros x y. unfold meanLow. destruct (half (x + y)) as (h & E & Hh). destruct (Z.even (x + y)); [rewrite E|]; lia. }
  unfold platOk, platLow. cbn [wb mI4 mI8 mU4 mU8 mI]. split; [auto|].
  do 4 (split; [apply bitMean_between|]). split; [intros x y _ _; specialize (B x y); lia|]. split; intros x y Hx Hxy Hy.
  - unfold meanLow. destruct (half (x + y)) as (h & E & Hh). destruct (Z.even (x + y)); [rewrite E|]; lia.
  - intro He. unfold meanLow. rewrite He. apply Z.even_spec in He. destruct He as [m E]. rewrite E.
    replace (2 * m) with (m * 2) by lia. rewrite Z.div_mul by lia. lia.
Qed.

Definition lowMem (i : Z) : Z := if i <? 25 then i else i + 1000.
Definition lowCall : call Z := typedCall platLow tiny 1 TU4 (Slice 0 46) lowMem.

Definition writes {P T R} (s : st P T R) : bool :=
  existsb (fun a => match a with Some (_, true) => true | _ => false end) (accesses s).

Fixpoint toWrite {P T R} (body : P -> cmd P T unit) (fuel : nat) (s : st P T R) : st P T R :=
  match fuel with
  | O => s
  | S f => if writes s then s else match firstOf body (allChoices s) s with Some s' => toWrite body f s' | None => s end
  end.

Lemma toWrite_exec {P T R} (body : P -> cmd P T unit) M Rg f : forall s : st P T R, exists k, exec body M Rg k s (toWrite body f s).
Proof.
  induction f as [|f IH]; intro s; cbn [toWrite]; [exists O; constructor|].
  destruct (writes s); [exists O; constructor|].
  destruct (firstOf body (allChoices s) s) as [s1|] eqn:E; [|exists O; constructor].
  destruct (IH s1) as [k Hk]. exists (k + 1)%nat. exact (exec_trans body M Rg 1 s s1 k _ (firstOf_exec body M Rg _ _ _ E) Hk).
Qed.

Lemma writes_spec {P T R} (s : st P T R) : writes s = true -> exists x, In (Some (x, true)) (accesses s).
Proof.
  unfold writes. intro H. apply existsb_exists in H. destruct H as ([[x []]|] & Hx & E); try discriminate. exists x. exact Hx.
Qed.

Lemma low_sorted : sortedCall platLow tiny lowCall.
Proof.
  apply sorted_u4.
  - split; [split; [discriminate|reflexivity]|]. apply Forall_forall. intros x Hx.
    assert (H : forallb (inRange 32) (contents lowMem (Slice 0 46)) = true) by (vm_compute; reflexivity).
    rewrite forallb_forall in H. specialize (H x Hx). apply inRange_spec in H. exact H.
  - intros i j _ Hij _. unfold lowMem. destruct (Z.ltb_spec i 25), (Z.ltb_spec j 25); lia.
Qed.

Definition lowRun := toWrite (cProcs lowCall) (Z.to_nat 5000) (start (cProg lowCall) (cInit lowCall) 9).
Lemma low_writes : writes lowRun = true.
Proof. vm_compute. reflexivity. Qed.

Lemma low_mean_writes : exists pl T (C : call T) k s x, platOk pl /\ tuningOk pl tiny /\ sortedCall pl tiny C /\
  reach C 9 k s /\ In (Some (x, true)) (accesses s).
Proof.
  destruct (toWrite_exec (cProcs lowCall) 9 (cCells lowCall) (Z.to_nat 5000) (start (cProg lowCall) (cInit lowCall) 9)) as [k Hk].
  destruct (writes_spec _ low_writes) as [x Hx].
  exists platLow, Z, lowCall, k, lowRun, x. split; [exact meanLow_ok|]. split; [repeat split|]. split; [exact low_sorted|].
  split; [exists 9; split; [lia|exact Hk]|exact Hx].
Qed.

(** ** Overlapping calls *)

(** Call 0 sorts 92 elements, call 1 the elements 10 to 79 of them; both in order already. *)
Definition innerCall : call Z := typedCall plat64 tiny (-1) TU4 (Slice 10 70) (fun i => i).
Definition crowdCalls (i : nat) : call Z := match i with O => spreadCall | _ => innerCall end.

Lemma ex_crowd_sorted i : sortedCall plat64 tiny (crowdCalls i).
Proof.
  destruct i as [|i]; [exact ex_spread_sorted|]. apply sorted_u4; [|intros; lia].
  apply (@typed_by TU4 (fun i => i) (Slice 10 70) (inRange 32)); [simpl; lia|intros x H; apply inRange_spec in H; exact H|vm_compute; reflexivity].
Qed.

Lemma crowd_rotate {T} (C : nat -> call T) ro M f : forall n w mg S i s u r, crowd C ro M w mg S -> S i = Busy s ->
  share s w mg = u -> rotate (cProcs (C i)) f n u = r ->
  exists s' S', share s' (mem (sh r)) mg = r /\ crowd C ro M (mem (sh r)) mg S' /\ S' i = Busy s' /\ forall j, j <> i -> S' j = S j.
Proof.
  induction f as [|f IH]; intros n w mg S i s u r H Hi <-; cbn [rotate].
  - intros <-. exists s, S. auto.
  - cbv zeta. match goal with |- context [match ?X with Some _ => _ | None => _ end] => destruct X as [s1|] eqn:E end;
      [|intros <-; exists s, S; auto].
    intro Er. apply firstOf_pstep in E.
    assert (Eg : maxg (sh s1) = mg) by (rewrite (pstep_maxg _ _ _ E); reflexivity).
    destruct (IH (Datatypes.S n) (mem (sh s1)) mg (turn C S i (Busy s1)) i s1 s1 r) as (s' & S' & A & B & D & F);
      [| | |exact Er|].
    + eapply crowd_busy; [exact H|exact Hi|exact E|apply turn_same|intros; rewrite turn_other by assumption; reflexivity].
    + apply turn_same.
    + rewrite <- Eg. apply share_self.
    + exists s', S'. split; [exact A|]. split; [exact B|]. split; [exact D|].
      intros j Hj. rewrite (F j Hj). apply turn_other, Hj.
Qed.

Definition crRun0 : st (cP spreadCall) Z unit := rotate (cProcs spreadCall) (Z.to_nat 600) 0 (start (cProg spreadCall) (fun i => i) 3).
Definition crRun1 : st (cP innerCall) Z unit := rotate (cProcs innerCall) (Z.to_nat 600) 0 (start (cProg innerCall) (mem (sh crRun0)) 3).

Lemma crRun_facts : Nat.ltb 0 (length (thr crRun0)) = true /\ isRet crRun0 = false /\
  Nat.ltb 0 (length (thr crRun1)) = true /\ isRet crRun1 = false.
Proof. repeat split; vm_compute; reflexivity. Qed.

Lemma crRun0_mem : forall x, cellsOf (Slice 10 70) x -> mem (sh crRun0) x = x.
Proof. apply (contents_cells (mem (sh crRun0)) (fun i => i)). vm_compute. reflexivity. Qed.

Lemma ex_crowd : exists w S s0 s1, crowd crowdCalls (fun _ => True) 3 w 3 S /\
  S 0%nat = Busy s0 /\ S 1%nat = Busy s1 /\
  ~ returned s0 tt /\ (1 <= length (thr s0))%nat /\ ~ returned s1 tt /\ (1 <= length (thr s1))%nat.
Proof.
  assert (W0 : crowd crowdCalls (fun _ => True) 3 (fun i => i) 3 (fun _ => Idle)) by (constructor; lia).
  assert (W1 : crowd crowdCalls (fun _ => True) 3 (fun i => i) 3 (turn crowdCalls (fun _ => Idle) 0 (Busy (start (cProg (crowdCalls 0)) (fun i => i) 3)))).
  { apply (crowd_call crowdCalls _ 3 _ _ _ _ 0%nat W0 eq_refl); [reflexivity|auto|apply turn_same|intros; rewrite turn_other by assumption; reflexivity]. }
  destruct (crowd_rotate crowdCalls _ 3 (Z.to_nat 600) 0 _ _ _ 0%nat _ (start (cProg (crowdCalls 0)) (fun i => i) 3) crRun0 W1 (turn_same _ _ _ _) eq_refl eq_refl) as (s & S2 & A & B & D & F).
  assert (W2 : crowd crowdCalls (fun _ => True) 3 (mem (sh crRun0)) 3 (turn crowdCalls S2 1 (Busy (start (cProg (crowdCalls 1)) (mem (sh crRun0)) 3)))).
  { apply (crowd_call crowdCalls _ 3 _ _ _ _ 1%nat B); [rewrite F by discriminate; rewrite turn_other by discriminate; reflexivity|exact crRun0_mem|auto|apply turn_same|intros; rewrite turn_other by assumption; reflexivity]. }
  destruct (crowd_rotate crowdCalls _ 3 (Z.to_nat 600) 0 _ _ _ 1%nat _ (start (cProg (crowdCalls 1)) (mem (sh crRun0)) 3) crRun1 W2 (turn_same _ _ _ _) eq_refl eq_refl) as (s1 & S3 & A1 & B1 & D1 & F1).
  destruct (share_thr _ _ _ _ A) as [T0 M0]. destruct (share_thr _ _ _ _ A1) as [T1 M1].
  destruct crRun_facts as (L0 & N0 & L1 & N1). apply Nat.ltb_lt in L0, L1.
  exists (mem (sh crRun1)), S3, s, s1. split; [exact B1|].
  split; [rewrite F1, turn_other by discriminate; exact D|]. split; [exact D1|].
  split; [unfold returned; rewrite M0; exact (isRet_not _ N0)|]. split; [rewrite T0; exact L0|].
  split; [unfold returned; rewrite M1; exact (isRet_not _ N1)|rewrite T1; exact L1].
Qed.
