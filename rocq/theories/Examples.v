(** * Concrete calls and executions that meet the hypotheses of the property theorems

    All calls are long enough, and the tuning parameters small enough, for the concurrent
    code to be used: every completed execution below has started goroutines. *)

From Coq Require Import List ZArith Lia Bool Permutation Sorted.
From Verif Require Import Trace HappensBefore TraceFacts Lang Scalar Typed Kinds Spec Lsw Calls SearchFacts TypedFacts LswFacts ConcSplit Weak WeakFacts Witness Refute.
Import ListNotations.
Open Scope Z_scope.

(** What a completed concurrent execution looks like. *)
Definition finished {T} (C : call T) (M : Z) (gs : nat) (l : list T) (s : slice) : Prop :=
  exists k st, reach C M k st /\ returned st tt /\ length (thr st) = gs /\ chans (sh st) = 1 /\
    contents (mem (sh st)) s = l.

Ltac by_rotation fuel :=
  lazymatch goal with |- finished ?C ?M ?gs ?l ?s =>
    let H := fresh in
    destruct (rotate_reach C M M (Z.to_nat fuel) 0 ltac:(lia)) as [k H];
    eexists k, _; split; [exact H|]; split; [apply isRet_returned; vm_compute; reflexivity|];
    split; [vm_compute; reflexivity|]; split; vm_compute; reflexivity
  end.

Lemma typed_by {e} (m : Z -> elem e) s (f : elem e -> bool) : 0 <= len s < 2 ^ 63 ->
  (forall x, f x = true -> wellTyped plat64 e x) -> forallb f (contents m s) = true -> typedSlice plat64 e m s.
Proof.
  intros Hl Hf H. split; [exact Hl|]. apply Forall_forall. intros x Hx. apply Hf.
  rewrite forallb_forall in H. auto.
Qed.

Definition inRange (w x : Z) : bool := (0 <=? x) && (x <? 2 ^ w).
Lemma inRange_spec w x : inRange w x = true -> 0 <= x < 2 ^ w.
Proof. unfold inRange. intro H. apply andb_true_iff in H. destruct H as [A B]. apply Z.leb_le in A. apply Z.ltb_lt in B. lia. Qed.

(** ** int64 *)

Example ex_int_typed : typedSlice plat64 TI8 exMem exSlice.
Proof. apply (@typed_by TI8 exMem exSlice (inRange 64)); [simpl; lia|intros x H; apply inRange_spec in H; exact H|vm_compute; reflexivity]. Qed.

Example ex_int_call : sortCall plat64 tiny exCall.
Proof. exact (call_typed plat64 tiny TI8 1 exSlice exMem ex_int_typed (or_introl eq_refl)). Qed.

Definition exSorted : list Z := map pat64 (filter (fun z => negb (z =? 5)) (map (fun i => Z.of_nat i - 30) (seq 0 61))).

Example ex_int_run : finished exCall 3 2 exSorted exSlice.
Proof. unfold exSorted. by_rotation 20000. Qed.

(** The same on a 32-bit platform. *)
Definition exCall32 : call Z := typedCall plat32 tiny 1 TI8 exSlice exMem.

Example ex_int_typed32 : typedSlice plat32 TI8 exMem exSlice.
Proof. split; [split; [discriminate|reflexivity]|apply ex_int_typed]. Qed.

Example ex_int_run32 : finished exCall32 3 2 exSorted exSlice.
Proof. unfold exSorted. by_rotation 20000. Qed.

(** In the middle: the caller is two recursive calls deep; it and a goroutine are each
    about to write (34 and 18), the goroutine that helped to partition is done. *)
Definition exMid := rotate (cProcs exCall) (Z.to_nat 645) 0 (start (cProg exCall) (cInit exCall) 3).

Example ex_int_mid : (exists k, reach exCall 3 k exMid) /\
  accesses exMid = [Some (34, true); None; Some (18, true)] /\
  length (thr exMid) = 2%nat /\ ngor (sh exMid) = 2 /\ chans (sh exMid) = 1 /\ depth (main exMid) = 2%nat /\
  isRet exMid = false.
Proof.
  split; [destruct (rotate_reach exCall 3 3 (Z.to_nat 645) 0 ltac:(lia)) as [k H]; exists k; exact H|].
  repeat split; vm_compute; reflexivity.
Qed.

(** ** float64 with NaNs (two payloads), infinities and both zeros; float32 likewise *)

Definition f64s : list Z :=
  let nan1 := 9221120237041090561 in (* 0x7ff8000000000001 *)
  let nan2 := 18444492273895866368 in (* 0xfff8000000000000 *)
  let inf := 9218868437227405312 in (* 0x7ff0000000000000 *)
  [nan1; inf; 0; 2 ^ 63; nan2; inf + 2 ^ 63; 4607182418800017408; 1; 2 ^ 63 + 1; nan1].
Definition fMem64 : Z -> Z := memOf 0 2 (f64s ++ map (fun i => (Z.of_nat i * 1234567890123456789) mod 2 ^ 62) (seq 1 30) ++ f64s ++ f64s).
Definition fSlice64 : slice := Slice 2 60.
Definition fCall64 (opt : Z) : call Z := typedCall plat64 tiny opt TF8 fSlice64 fMem64.

Example ex_f64_typed : typedSlice plat64 TF8 fMem64 fSlice64.
Proof. apply (@typed_by TF8 fMem64 fSlice64 (inRange 64)); [simpl; lia|intros x H; apply inRange_spec in H; exact H|vm_compute; reflexivity]. Qed.

Definition nan64b (b : Z) : bool := (b / 2 ^ 52 mod 2 ^ 11 =? 2047) && negb (b mod 2 ^ 52 =? 0).

(** 9 NaNs, in the end with NaNlarge and at the start with NaNsmall. *)
Example ex_f64_last : exists k st, reach (fCall64 1) 3 k st /\ returned st tt /\ (1 <= length (thr st))%nat /\
  map nan64b (contents (mem (sh st)) fSlice64) = repeat false 51 ++ repeat true 9 /\
  firstn 5 (contents (mem (sh st)) fSlice64) =
    [18442240474082181120; 18442240474082181120; 18442240474082181120; 2 ^ 63 + 1; 2 ^ 63 + 1].
Proof.
  destruct (rotate_reach (fCall64 1) 3 3 (Z.to_nat 20000) 0 ltac:(lia)) as [k H].
  eexists k, _; split; [exact H|]. split; [apply isRet_returned; vm_compute; reflexivity|].
  split; [apply Nat.leb_le; vm_compute; reflexivity|]. split; vm_compute; reflexivity.
Qed.

Example ex_f64_first : exists k st, reach (fCall64 (-1)) 3 k st /\ returned st tt /\ (1 <= length (thr st))%nat /\
  map nan64b (contents (mem (sh st)) fSlice64) = repeat true 9 ++ repeat false 51.
Proof.
  destruct (rotate_reach (fCall64 (-1)) 3 3 (Z.to_nat 20000) 0 ltac:(lia)) as [k H].
  eexists k, _; split; [exact H|]. split; [apply isRet_returned; vm_compute; reflexivity|].
  split; [apply Nat.leb_le; vm_compute; reflexivity|]. vm_compute; reflexivity.
Qed.

(** NaN-free float32, any option (here NaNignore). *)
Definition f32Mem : Z -> Z := memOf 0 0 (map (fun i => (Z.of_nat i * 123456789) mod 2 ^ 30 + (Z.of_nat i mod 2) * 2 ^ 31) (seq 1 50)).
Definition f32Slice : slice := Slice 0 50.
Definition f32Call : call Z := typedCall plat64 tiny 0 TF4 f32Slice f32Mem.

Example ex_f32_typed : typedSlice plat64 TF4 f32Mem f32Slice.
Proof. apply (@typed_by TF4 f32Mem f32Slice (inRange 32)); [simpl; lia|intros x H; apply inRange_spec in H; exact H|vm_compute; reflexivity]. Qed.

Definition nan32b (b : Z) : bool := (b / 2 ^ 23 mod 2 ^ 8 =? 255) && negb (b mod 2 ^ 23 =? 0).
Lemma nan32b_spec b : nan32b b = false -> ~ nan TF4 b.
Proof.
  unfold nan32b. intros H [A B]. unfold fExp in A. unfold fMan in B. cbn in A.
  apply andb_false_iff in H. destruct H as [H|H].
  - apply Z.eqb_neq in H. apply H. rewrite <- A. reflexivity.
  - apply negb_false_iff, Z.eqb_eq in H. auto.
Qed.

Example ex_f32_nanfree : Forall (fun y => ~ nan TF4 y) (contents f32Mem f32Slice).
Proof.
  assert (H : forallb (fun b => negb (nan32b b)) (contents f32Mem f32Slice) = true) by (vm_compute; reflexivity).
  apply Forall_forall. intros x Hx. apply nan32b_spec. rewrite forallb_forall in H. apply negb_true_iff, H, Hx.
Qed.

Example ex_f32_run : exists k st, reach f32Call 3 k st /\ returned st tt /\ (1 <= length (thr st))%nat.
Proof.
  destruct (rotate_reach f32Call 3 3 (Z.to_nat 20000) 0 ltac:(lia)) as [k H].
  eexists k, _; split; [exact H|]. split; [apply isRet_returned; vm_compute; reflexivity|].
  apply Nat.leb_le; vm_compute; reflexivity.
Qed.

(** ** strings, byte slices; by length *)

Definition text (i : nat) : list Z := repeat 97 (Nat.modulo (i * 7) 5) ++ [Z.of_nat (Nat.modulo (i * 31) 47); 98].
Definition sMem : Z -> strh := memOf (StrH 0 []) 0 (map (fun i => StrH (Z.of_nat i) (text i)) (seq 0 50)).
Definition sSlice : slice := Slice 0 50.
Definition bMem : Z -> slch := memOf (SlcH 0 0 []) 0 (map (fun i => SlcH (Z.of_nat i) 9 (text i)) (seq 0 50)).
Definition aMem : Z -> anyh := memOf (AnyH 0 0 0) 0 (map (fun i => AnyH (Z.of_nat i) ((Z.of_nat i * 31) mod 23) 40) (seq 0 50)).
Definition sCall : call strh := typedCall plat64 tiny 1 TS sSlice sMem.
Definition bCall : call slch := typedCall plat64 tiny 1 TB sSlice bMem.
Definition lsCall : call strh := typedCall plat64 tiny 1 TLenS sSlice sMem.
Definition laCall : call anyh := typedCall plat64 tiny 1 TLenB sSlice aMem.

Definition shortL (l : list Z) : bool := Z.of_nat (length l) <? 2 ^ 63.

Example ex_s_typed : typedSlice plat64 TS sMem sSlice /\ typedSlice plat64 TLenS sMem sSlice.
Proof. split.
  - apply (@typed_by TS sMem sSlice (fun x => shortL (sbytes x))); [simpl; lia|intros x H; apply Z.ltb_lt in H; exact H|vm_compute; reflexivity].
  - apply (@typed_by TLenS sMem sSlice (fun x => shortL (sbytes x))); [simpl; lia|intros x H; apply Z.ltb_lt in H; exact H|vm_compute; reflexivity].
Qed.

Example ex_b_typed : typedSlice plat64 TB bMem sSlice.
Proof. apply (@typed_by TB bMem sSlice (fun x => shortL (bbytes x))); [simpl; lia|intros x H; apply Z.ltb_lt in H; exact H|vm_compute; reflexivity]. Qed.

Example ex_a_typed : typedSlice plat64 TLenB aMem sSlice.
Proof. apply (@typed_by TLenB aMem sSlice (fun x => inRange 63 (alen x))); [simpl; lia|intros x H; apply inRange_spec in H; exact H|vm_compute; reflexivity]. Qed.

Example ex_s_run : exists k st, reach sCall 3 k st /\ returned st tt /\ (1 <= length (thr st))%nat /\
  map sbytes (firstn 4 (contents (mem (sh st)) sSlice)) = [[0; 98]; [4; 98]; [9; 98]; [14; 98]].
Proof.
  destruct (rotate_reach sCall 3 3 (Z.to_nat 20000) 0 ltac:(lia)) as [k H].
  eexists k, _; split; [exact H|]. split; [apply isRet_returned; vm_compute; reflexivity|].
  split; [apply Nat.leb_le; vm_compute; reflexivity|]. vm_compute; reflexivity.
Qed.

Example ex_b_run : exists k st, reach bCall 3 k st /\ returned st tt /\ (1 <= length (thr st))%nat /\
  map bbytes (firstn 4 (contents (mem (sh st)) sSlice)) = [[0; 98]; [4; 98]; [9; 98]; [14; 98]].
Proof.
  destruct (rotate_reach bCall 3 3 (Z.to_nat 20000) 0 ltac:(lia)) as [k H].
  eexists k, _; split; [exact H|]. split; [apply isRet_returned; vm_compute; reflexivity|].
  split; [apply Nat.leb_le; vm_compute; reflexivity|]. vm_compute; reflexivity.
Qed.

Example ex_len_run : exists k st, reach lsCall 3 k st /\ returned st tt /\ (1 <= length (thr st))%nat /\
  map (fun x => length (sbytes x)) (contents (mem (sh st)) sSlice) =
    (repeat 2 10 ++ repeat 3 10 ++ repeat 4 10 ++ repeat 5 10 ++ repeat 6 10)%nat.
Proof.
  destruct (rotate_reach lsCall 3 3 (Z.to_nat 20000) 0 ltac:(lia)) as [k H].
  eexists k, _; split; [exact H|]. split; [apply isRet_returned; vm_compute; reflexivity|].
  split; [apply Nat.leb_le; vm_compute; reflexivity|]. vm_compute; reflexivity.
Qed.

Example ex_lenB_run : exists k st, reach laCall 3 k st /\ returned st tt /\ (1 <= length (thr st))%nat /\
  map alen (firstn 5 (contents (mem (sh st)) sSlice)) = [0; 0; 0; 1; 1].
Proof.
  destruct (rotate_reach laCall 3 3 (Z.to_nat 20000) 0 ltac:(lia)) as [k H].
  eexists k, _; split; [exact H|]. split; [apply isRet_returned; vm_compute; reflexivity|].
  split; [apply Nat.leb_le; vm_compute; reflexivity|]. vm_compute; reflexivity.
Qed.

(** ** Sort over a Lesswap function: pairs compared by their first component, descending;
    60 of the 70 elements of the collection are to be sorted *)

Definition pairGt (x y : Z * Z) : bool := fst y <? fst x.

Example ex_pair_order : weakOrder pairGt.
Proof.
  split; unfold pairGt; intros.
  - apply Z.ltb_lt in H. apply Z.ltb_ge. lia.
  - apply Z.ltb_ge in H, H0. apply Z.ltb_ge. lia.
Qed.

Definition pMem : Z -> Z * Z := memOf (0, 0) 0 (map (fun i => ((Z.of_nat i * 37) mod 23, Z.of_nat i)) (seq 0 70)).
Definition pSlice : slice := Slice 0 60.
Definition pCall : call (Z * Z) := lswCall plat64 tiny pairGt 70 60 pMem.

Example ex_lsw_call : sortCall plat64 tiny pCall.
Proof. apply call_lsw; [exact ex_pair_order|lia|vm_compute; reflexivity]. Qed.

Example ex_lsw_run : exists k st, reach pCall 3 k st /\ returned st tt /\ (1 <= length (thr st))%nat /\
  map fst (firstn 8 (contents (mem (sh st)) pSlice)) = [22; 22; 21; 21; 21; 20; 20; 20].
Proof.
  destruct (rotate_reach pCall 3 3 (Z.to_nat 30000) 0 ltac:(lia)) as [k H].
  eexists k, _; split; [exact H|]. split; [apply isRet_returned; vm_compute; reflexivity|].
  split; [apply Nat.leb_le; vm_compute; reflexivity|]. vm_compute; reflexivity.
Qed.

(** Among pairs with equal first components, rock-paper-scissors on the second: irreflexive,
    but not transitive, and consistent with the order above. *)
Definition pairOdd (x y : Z * Z) : bool :=
  (fst y <? fst x) || ((fst x =? fst y) && ((snd y - snd x) mod 3 =? 1)).

Example ex_odd : consistent pairOdd pairGt /\ ~ weakOrder pairOdd.
Proof.
  split; [split; [|split; [exact ex_pair_order|split]]|].
  - intros [a b]. unfold pairOdd. simpl. rewrite Z.ltb_irrefl, Z.sub_diag. destruct (a =? a); reflexivity.
  - intros x y H. unfold pairOdd. unfold pairGt in H. rewrite H. reflexivity.
  - intros x y H. unfold pairOdd in H. unfold pairGt. apply Z.ltb_ge. apply orb_true_iff in H.
    destruct H as [H|H]; [apply Z.ltb_lt in H; lia|]. apply andb_true_iff in H. destruct H as [H _].
    apply Z.eqb_eq in H. lia.
  - intros [_ H]. specialize (H (0, 0) (0, 1) (0, 2) eq_refl eq_refl). discriminate H.
Qed.

Definition oddMem : Z -> Z * Z := memOf (0, 0) 0 (map (fun i => ((Z.of_nat i * 37) mod 5, Z.of_nat i)) (seq 0 70)).
Definition oddCall : call (Z * Z) := lswCall plat64 tiny pairOdd 70 60 oddMem.

Example ex_odd_run : exists k st, reach oddCall 3 k st /\ returned st tt /\ (1 <= length (thr st))%nat /\
  map fst (contents (mem (sh st)) pSlice) = repeat 4 12 ++ repeat 3 12 ++ repeat 2 12 ++ repeat 1 12 ++ repeat 0 12.
Proof.
  destruct (rotate_reach oddCall 3 3 (Z.to_nat 30000) 0 ltac:(lia)) as [k H].
  eexists k, _; split; [exact H|]. split; [apply isRet_returned; vm_compute; reflexivity|].
  split; [apply Nat.leb_le; vm_compute; reflexivity|]. vm_compute; reflexivity.
Qed.

(** ** More executions *)

Ltac by_drive C M f :=
  let k := fresh "k" in let H := fresh "H" in
  destruct (drive_reach C M M (Z.to_nat f) ltac:(lia)) as [k H]; eexists k, _; split; [exact H|].

(** A single goroutine. *)
Example ex_int_single : exists k st, reach exCall 1 k st /\ returned st tt.
Proof. by_drive exCall 1 20000. apply isRet_returned; vm_compute; reflexivity. Qed.

(** Counter back at zero, not yet returned or returned. *)
Example ex_int_zero : exists k s, reach exCall 3 k s /\ chans (sh s) = 1 /\ ngor (sh s) = 0.
Proof.
  destruct (rotate_reach exCall 3 3 (Z.to_nat 20000) 0 ltac:(lia)) as [k H].
  eexists k, _; split; [exact H|]. split; vm_compute; reflexivity.
Qed.

Example ex_quota_call : sortCall plat64 tiny quotaCall.
Proof.
  refine (call_typed plat64 tiny TU4 1 (Slice 0 200) (fun i => i) _ (or_introl eq_refl)).
  apply (@typed_by TU4 (fun i => i) (Slice 0 200) (inRange 32)); [simpl; lia|intros x H; apply inRange_spec in H; exact H|vm_compute; reflexivity].
Qed.

Definition noProcs {P T} (_ : P) : cmd P T unit := Ret tt.

Example ex_halving : halving plat64.
Proof.
  intros x y _ _ _. cbn [mI plat64]. rewrite bitMean_floor.
  assert (E := Z.div_mod (x + y) 2 ltac:(lia)). assert (R := Z.mod_pos_bound (x + y) 2 ltac:(lia)). lia.
Qed.

Definition isRetZ {P T} (s : st P T Z) (r : Z) : bool := match view (main s) with HRet a => a =? r | _ => false end.
Lemma isRetZ_returned {P T} (s : st P T Z) r : isRetZ s r = true -> returned s r.
Proof.
  unfold isRetZ, returned. destruct (view (main s)); try discriminate. intro H. apply Z.eqb_eq in H. subst. reflexivity.
Qed.

Ltac by_exec b M Rg f s :=
  let k := fresh "k" in let H := fresh "H" in
  destruct (drive_exec b M Rg (Z.to_nat f) s) as [k H]; eexists k, _; split; [exact H|].

Example ex_search : monotone 1000 (fun i => 700 <=? i * 2) /\
  exists k s, exec (@noProcs unit bool) 1 (cellsOf (Slice 0 1000)) k
    (start (search (mI plat64) 1000) (fun i => 700 <=? i * 2) 1) s /\ returned s 350.
Proof.
  split; [intros i H0 H1 H; apply Z.leb_le in H; apply Z.leb_le; lia|].
  by_exec (@noProcs unit bool) 1 (cellsOf (Slice 0 1000)) 100 (start (@search unit (mI plat64) 1000) (fun i => 700 <=? i * 2) 1).
  apply isRetZ_returned. vm_compute. reflexivity.
Qed.

Example ex_is_sorted : exists k st, exec noProcs 1 (cellsOf (Slice 0 7)) k
  (start (lswIsSorted (Wd := pword plat64) (fun x y => y <? x) 7 7) (memOf 0 0 [9; 8; 7; 3; 5; 4; 2]) 1) st /\ returned st 4.
Proof.
  by_exec (@noProcs lproc Z) 1 (cellsOf (Slice 0 7)) 100
    (start (lswIsSorted (Wd := pword plat64) (fun x y => y <? x) 7 7) (memOf 0 0 [9; 8; 7; 3; 5; 4; 2]) 1).
  apply isRetZ_returned. vm_compute. reflexivity.
Qed.

Definition chkMem : Z -> Z := memOf 0 0 [2 ^ 64 - 1; 3; 2; 7].
Example ex_check_int : typedSlice plat64 TI8 chkMem (Slice 0 4) /\
  exists k st, exec (procs plat64 tiny TI8) 1 (cellsOf (Slice 0 4)) k
     (start (checkProg plat64 1 TI8 (Slice 0 4)) chkMem 1) st /\ returned st 2.
Proof.
  split; [apply (@typed_by TI8 chkMem (Slice 0 4) (inRange 64)); [simpl; lia|intros x H; apply inRange_spec in H; exact H|vm_compute; reflexivity]|].
  by_exec (procs plat64 tiny TI8) 1 (cellsOf (Slice 0 4)) 100 (start (checkProg plat64 1 TI8 (Slice 0 4)) chkMem 1).
  apply isRetZ_returned. vm_compute. reflexivity.
Qed.

(** -1.0, 1.0, NaN, NaN *)
Definition chkMemF : Z -> Z := memOf 0 0 [13830554455654793216; 4607182418800017408; 9221120237041090561; 9221120237041090561].
Example ex_check_float : typedSlice plat64 TF8 chkMemF (Slice 0 4) /\
  (exists k st, exec (procs plat64 tiny TF8) 1 (cellsOf (Slice 0 4)) k
     (start (checkProg plat64 1 TF8 (Slice 0 4)) chkMemF 1) st /\ returned st 0) /\
  (exists k st, exec (procs plat64 tiny TF8) 1 (cellsOf (Slice 0 4)) k
     (start (checkProg plat64 (-1) TF8 (Slice 0 4)) chkMemF 1) st /\ returned st 3).
Proof.
  split; [apply (@typed_by TF8 chkMemF (Slice 0 4) (inRange 64)); [simpl; lia|intros x H; apply inRange_spec in H; exact H|vm_compute; reflexivity]|].
  split.
  - by_exec (procs plat64 tiny TF8) 1 (cellsOf (Slice 0 4)) 100 (start (checkProg plat64 1 TF8 (Slice 0 4)) chkMemF 1).
    apply isRetZ_returned. vm_compute. reflexivity.
  - by_exec (procs plat64 tiny TF8) 1 (cellsOf (Slice 0 4)) 100 (start (checkProg plat64 (-1) TF8 (Slice 0 4)) chkMemF 1).
    apply isRetZ_returned. vm_compute. reflexivity.
Qed.

Example ex_check_len : exists k st, exec (procs plat64 tiny TLenB) 1 (cellsOf sSlice) k
  (start (checkProg plat64 1 TLenB sSlice) aMem 1) st /\ returned st 49.
Proof.
  by_exec (procs plat64 tiny TLenB) 1 (cellsOf sSlice) 400 (start (checkProg plat64 1 TLenB sSlice) aMem 1).
  apply isRetZ_returned. vm_compute. reflexivity.
Qed.

Example ex_one : exists k st, reach (typedCall plat64 shipped 1 TI8 (Slice 3 1) (fun i => i)) 3 k st /\ returned st tt.
Proof. by_drive (typedCall plat64 shipped 1 TI8 (Slice 3 1) (fun i => i)) 3 20. apply isRet_returned; vm_compute; reflexivity. Qed.

Example ex_stable : exists k st, reach (typedCall plat64 shipped 1 TLenS sSlice sMem) 1 k st /\ returned st tt /\
  map sptr (firstn 10 (contents (mem (sh st)) sSlice)) = [0; 5; 10; 15; 20; 25; 30; 35; 40; 45].
Proof.
  by_drive (typedCall plat64 shipped 1 TLenS sSlice sMem) 1 20000.
  split; [apply isRet_returned|]; vm_compute; reflexivity.
Qed.

Definition retSome {P T} (s : st P T Z) : bool := match view (main s) with HRet _ => true | _ => false end.
Lemma retSome_returned {P T} (s : st P T Z) : retSome s = true -> exists r, returned s r.
Proof. unfold retSome, returned. destruct (view (main s)); try discriminate. eauto. Qed.

Example ex_split :
  (exists k st, exec (procs plat64 tiny TI8) 1 (cellsOf exSlice) k (start (splitLong plat64 TI8 exSlice) exMem 1) st /\
     exists r, returned st r) /\
  (exists k st, exec (lswBody (Wd := pword plat64) pairGt 70 tiny bitMean) 1 (cellsOf pSlice) k
     (start (lswSplitShort (Wd := pword plat64) pairGt 70 0 59) pMem 1) st /\ exists r, returned st r).
Proof.
  split.
  - by_exec (procs plat64 tiny TI8) 1 (cellsOf exSlice) 2000 (start (splitLong plat64 TI8 exSlice) exMem 1).
    apply retSome_returned. vm_compute. reflexivity.
  - by_exec (lswBody (Wd := pword plat64) pairGt 70 tiny bitMean) 1 (cellsOf pSlice) 2000 (start (lswSplitShort (Wd := pword plat64) pairGt 70 0 59) pMem 1).
    apply retSome_returned. vm_compute. reflexivity.
Qed.

(** The two goroutines of a concurrent split. *)
Example ex_conc_split :
  (exists k st, exec (procs plat64 tiny TI8) 3 (cellsOf exSlice) k (start (splitConc plat64 TI8 exSlice) exMem 3) st /\
     (exists r, returned st r) /\ length (thr st) = 1%nat) /\
  (exists k st, exec (lswBody (Wd := pword plat64) pairGt 70 tiny bitMean) 3 (cellsOf pSlice) k
     (start (lswSplitConc plat64 pairGt 70 0 59) pMem 3) st /\ (exists r, returned st r) /\ length (thr st) = 1%nat).
Proof.
  split.
  - by_exec (procs plat64 tiny TI8) 3 (cellsOf exSlice) 4000 (start (splitConc plat64 TI8 exSlice) exMem 3).
    split; [apply retSome_returned|]; vm_compute; reflexivity.
  - by_exec (lswBody (Wd := pword plat64) pairGt 70 tiny bitMean) 3 (cellsOf pSlice) 4000 (start (lswSplitConc plat64 pairGt 70 0 59) pMem 3).
    split; [apply retSome_returned|]; vm_compute; reflexivity.
Qed.

(** ** Two calls at the same time *)

Definition exSlice2 : slice := Slice 100 60.
Definition exMem2 (i : Z) : Z := exMem (i - 95).
Definition exCall2 : call Z := typedCall plat64 tiny 1 TI8 exSlice2 exMem2.
Definition bothMem (i : Z) : Z := if i <? 100 then exMem i else exMem2 i.

Section Both.
Context {T : Type} (C1 C2 : call T) (M : Z).

Lemma firstOf_pstep {P R} (body : P -> cmd P T unit) chs (s s' : st P T R) :
  firstOf body chs s = Some s' -> pstep body s s'.
Proof.
  induction chs as [|ch chs IH]; simpl; [discriminate|]. destruct (run1 body ch s) as [s1|] eqn:E; [|auto].
  intro H; inversion H; subst. eapply run1_pstep; exact E.
Qed.

(** Run the calls in turn, [f] rounds. *)
Fixpoint both (f : nat) (s1 : st (cP C1) T unit) (s2 : st (cP C2) T unit) {struct f} : st (cP C1) T unit * st (cP C2) T unit :=
  match f with
  | O => (s1, s2)
  | S f =>
      let '(s1, s2) := match firstOf (cProcs C1) (rev (allChoices s1)) s1 with
                       | Some s1' => (s1', share s2 (mem (sh s1')) (maxg (sh s1'))) | None => (s1, s2) end in
      let '(s1, s2) := match firstOf (cProcs C2) (rev (allChoices s2)) s2 with
                       | Some s2' => (share s1 (mem (sh s2')) (maxg (sh s2')), s2') | None => (s1, s2) end in
      both f s1 s2
  end.

Lemma both_reach f : forall s1 s2, reach2 C1 C2 M s1 s2 -> reach2 C1 C2 M (fst (both f s1 s2)) (snd (both f s1 s2)).
Proof.
  induction f as [|f IH]; intros s1 s2 H; cbn [both]; [exact H|].
  destruct (firstOf (cProcs C1) (rev (allChoices s1)) s1) as [s1'|] eqn:E1.
  - set (t2 := share s2 (mem (sh s1')) (maxg (sh s1'))).
    assert (H1 : reach2 C1 C2 M s1' t2) by (eapply both_left; [exact H|eapply firstOf_pstep; exact E1]).
    destruct (firstOf (cProcs C2) (rev (allChoices t2)) t2) as [s2'|] eqn:E2; apply IH; [|exact H1].
    eapply both_right; [exact H1|eapply firstOf_pstep; exact E2].
  - destruct (firstOf (cProcs C2) (rev (allChoices s2)) s2) as [s2'|] eqn:E2; apply IH; [|exact H].
    eapply both_right; [exact H|eapply firstOf_pstep; exact E2].
Qed.
End Both.

Example ex_two : sortCall plat64 tiny exCall2 /\
  (forall i, cCells exCall i -> cCells exCall2 i -> False) /\
  exists s1 s2, reach2 exCall exCall2 3 s1 s2 /\ (1 <= length (thr s1))%nat /\ (1 <= length (thr s2))%nat.
Proof.
  split.
  { refine (call_typed plat64 tiny TI8 1 exSlice2 exMem2 _ (or_introl eq_refl)).
    apply (@typed_by TI8 exMem2 exSlice2 (inRange 64)); [simpl; lia|intros x H; apply inRange_spec in H; exact H|vm_compute; reflexivity]. }
  split; [cbn; unfold cellsOf; simpl; intros; lia|].
  assert (R : reach2 exCall exCall2 3 (start (cProg exCall) bothMem 3) (start (cProg exCall2) bothMem 3)).
  { apply both_start; [lia| |]; cbn [cCells cInit exCall exCall2 typedCall]; unfold cellsOf, bothMem; intros i Hi;
      destruct (Z.ltb_spec i 100); simpl in Hi; reflexivity || lia. }
  eexists _, _. split; [exact (both_reach exCall exCall2 3 (Z.to_nat 400) _ _ R)|].
  split; apply Nat.leb_le; vm_compute; reflexivity.
Qed.

(** ** A traced execution *)

Example ex_trace : exists tr st, traced exCall 3 tr st /\ returned st tt /\ (exists p, In (EvGo p 1) tr) /\
  callerOnly [EvWrite 0 5; EvRead 0 5].
Proof.
  destruct ex_int_run as (k & st & Hr & Hret & Hthr & _).
  destruct (proj1 (reach_traced exCall 3 k st) Hr) as (tr & _ & Ht). exists tr, st.
  split; [exact Ht|]. split; [exact Hret|]. split.
  - destruct Ht as (mg0 & _ & Ht). destruct (all_started _ _ _ _ _ _ _ _ Ht) as [A _].
    destruct (A 1%nat ltac:(lia)) as (j & p & Hj). exists p. eapply nth_error_In; exact Hj.
  - repeat constructor; intros t H; exact H.
Qed.

Example ex_weak : exists w, weakly exCall 3 w /\ view (wmain w) = HRet tt /\ (exists p, In (EvGo p 1) (map fst (whist w))) /\
  seenBy exCall w (latest exMem (whist w)).
Proof.
  destruct ex_trace as (tr & st & Ht & Hret & Hgo & _).
  destruct (strong_same exCall 3 tr st Ht) as (w & Hw & <- & E & _ & _). exists w.
  split; [exact Hw|]. split; [rewrite E; exact Hret|]. split; [exact Hgo|]. intros x _. apply latest_visible.
Qed.

(** ** NaNs among the elements, under NaNignore *)

Definition mixMem : Z -> Z := memOf 0 0 (map (fun i => if Z.of_nat i mod 9 =? 0 then 2143289344 + Z.of_nat i
  else (Z.of_nat i * 123456789) mod 2 ^ 30 + (Z.of_nat i mod 2) * 2 ^ 31) (seq 1 50)).
Definition mixCall : call Z := typedCall plat64 tiny 0 TF4 f32Slice mixMem.

Example ex_mix_typed : typedSlice plat64 TF4 mixMem f32Slice.
Proof. apply (@typed_by TF4 mixMem f32Slice (inRange 32)); [simpl; lia|intros x H; apply inRange_spec in H; exact H|vm_compute; reflexivity]. Qed.

Example ex_mix_nan : map nan32b (firstn 9 (contents mixMem f32Slice)) = repeat false 8 ++ [true].
Proof. vm_compute. reflexivity. Qed.

Example ex_mix_run : exists k st, reach mixCall 3 k st /\ returned st tt /\ (2 <= length (thr st))%nat.
Proof.
  destruct (rotate_reach mixCall 3 3 (Z.to_nat 30000) 0 ltac:(lia)) as [k H].
  eexists k, _; split; [exact H|]. split; [apply isRet_returned; vm_compute; reflexivity|].
  apply Nat.leb_le; vm_compute; reflexivity.
Qed.

Example ex_mix_weak : exists w, weakly mixCall 3 w /\ view (wmain w) = HRet tt /\ (2 <= length (wthr w))%nat.
Proof.
  destruct ex_mix_run as (k & st & Hr & Hret & Hl). apply reach_traced in Hr. destruct Hr as (tr & _ & Ht).
  destruct (strong_same mixCall 3 tr st Ht) as (w & Hw & _ & E1 & E2 & _). exists w.
  split; [exact Hw|]. rewrite E1, E2. split; [exact Hret|exact Hl].
Qed.

(** ** In the middle of sorting *)

Definition pMid := rotate (cProcs pCall) (Z.to_nat 845) 0 (start (cProg pCall) (cInit pCall) 3).

(** Sort: the caller and a goroutine at work, neither about to write. *)
Example ex_lsw_mid : (exists k, reach pCall 3 k pMid) /\ isRet pMid = false /\
  accesses pMid = [Some (38, false); None; Some (38, false)] /\
  firstn 3 (contents pMem pSlice) <> firstn 3 (contents (mem (sh pMid)) pSlice).
Proof.
  split; [destruct (rotate_reach pCall 3 3 (Z.to_nat 845) 0 ltac:(lia)) as [k H]; exists k; exact H|].
  split; [vm_compute; reflexivity|]. split; [vm_compute; reflexivity|]. vm_compute. discriminate.
Qed.

Definition exHeld := rotate (cProcs exCall) (Z.to_nat 1127) 0 (start (cProg exCall) (cInit exCall) 3).

(** SortSlice: likewise, but one of the elements is not in the slice. *)
Example ex_held : (exists k, reach exCall 3 k exHeld) /\
  accesses exHeld = [Some (47, false); None; Some (24, false)] /\
  ~ Permutation (contents (mem (sh exHeld)) exSlice) (contents exMem exSlice).
Proof.
  split; [destruct (rotate_reach exCall 3 3 (Z.to_nat 1127) 0 ltac:(lia)) as [k H]; exists k; exact H|].
  split; [vm_compute; reflexivity|]. intro H.
  assert (E : forall l l', Permutation l l' -> fold_right Z.add 0 l = fold_right Z.add 0 l').
  { induction 1; cbn [fold_right]; lia. }
  apply E in H. vm_compute in H. discriminate.
Qed.

Lemma held : exists k st, reach exCall 3 k st /\ (forall x, ~ In (Some (x, true)) (accesses st)) /\
  ~ Permutation (contents (mem (sh st)) exSlice) (contents exMem exSlice).
Proof.
  destruct ex_held as ([k Hr] & Ha & Hn). exists k, exHeld. split; [exact Hr|]. split; [|exact Hn].
  intros x H. rewrite Ha in H. destruct H as [H|[H|[H|[]]]]; discriminate.
Qed.

(** ** The model checks bounds as Go does *)

Lemma ex_checked : forall (P T : Type) (s : slice) i l h (x : T) (m : list T),
  (view (sget s i : cmd P T T) = HPanic <-> ~ 0 <= i < len s) /\
  (view (sset s i x : cmd P T unit) = HPanic <-> ~ 0 <= i < len s) /\
  (view (reslice s l h : cmd P T slice) = HPanic <-> ~ (0 <= l <= h /\ h <= len s)) /\
  (lget m i = None <-> ~ 0 <= i < Z.of_nat (length m)) /\
  (lset m i x = None <-> ~ 0 <= i < Z.of_nat (length m)).
Proof.
  intros. unfold sget, sset, reslice, lget, lset.
  split; [|split; [|split; [|split]]];
    repeat match goal with |- context [?a <=? ?b] => destruct (Z.leb_spec a b) | |- context [?a <? ?b] => destruct (Z.ltb_spec a b) end;
    cbn [andb view]; split; intro E; try discriminate; try reflexivity; try lia.
  apply nth_error_None in E. lia.
Qed.

Lemma ex_checked_lsw : forall (T : Type) (lt : T -> T -> bool) cap i k r s (x : T),
  (view (cget cap i) = HPanic (T := T) <-> ~ 0 <= i < cap) /\
  (view (cset cap i x) = HPanic <-> ~ 0 <= i < cap) /\
  (~ (0 <= r < cap /\ 0 <= s < cap) -> view (lsw lt cap i k r s) = HPanic).
Proof.
  intros. unfold cget, cset, lsw.
  split; [|split];
    repeat match goal with |- context [?a <=? ?b] => destruct (Z.leb_spec a b) | |- context [?a <? ?b] => destruct (Z.ltb_spec a b) end;
    cbn [andb negb view]; try (split; intro E; try discriminate; try reflexivity; try lia); intro E; try lia; reflexivity.
Qed.
