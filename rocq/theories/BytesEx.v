(** * Example for [BytesFacts.v]: three calls in one memory *)

From Coq Require Import List ZArith Lia Bool Arith Permutation.
From Verif Require Import Lang Scalar Typed Kinds Spec Calls Witness Examples Guarantee Many Bytes BytesFacts.
Import ListNotations.
Open Scope Z_scope.

(** [W] tabulated on [0..n), for evaluation. *)
Definition norm (n : nat) (W : bytes) : bytes :=
  let l := map (fun i => W (Z.of_nat i)) (seq 0 n) in
  fun a => if (0 <=? a) && (a <? Z.of_nat n) then nth (Z.to_nat a) l 0 else W a.

Lemma norm_eq n W a : norm n W a = W a.
Proof.
  unfold norm. destruct (Z.leb_spec 0 a); [|reflexivity]. destruct (Z.ltb_spec a (Z.of_nat n)); [|reflexivity]. cbn [andb].
  rewrite (nth_indep _ 0 (W (Z.of_nat 0))) by (rewrite map_length, seq_length; lia).
  rewrite (map_nth (fun i => W (Z.of_nat i))). rewrite seq_nth by lia. f_equal. lia.
Qed.

Section Run.
Variables (pl : plat) (be : bool) (tn : tuning) (mg : Z) (n : nat).

(** Up to [f] steps of one call. *)
Fixpoint brun (j : job) (f : nat) (W : bytes) (s : jst j) : bytes * jst j :=
  match f with
  | O => (W, s)
  | S f =>
      let u := share s (viewAs pl be j W) mg in
      match firstOf (procs pl tn (jety j)) (allChoices u) u with
      | Some s' => brun j f (norm n (fill pl be j W (mem (sh s')))) s'
      | None => (W, s)
      end
  end.

Definition jturn (J : nat -> job) (S : forall i, jphase (J i)) (i : nat) (p : jphase (J i)) : forall j, jphase (J j) :=
  fun j => match Nat.eq_dec i j with left E => eq_rect i (fun j => jphase (J j)) p j E | right _ => S j end.

Lemma jturn_same J S i p : jturn J S i p i = p.
Proof. unfold jturn. destruct (Nat.eq_dec i i) as [E|N]; [|destruct (N eq_refl)]. rewrite (Eqdep_dec.UIP_refl_nat i E). reflexivity. Qed.

Lemma jturn_other J S i p j : j <> i -> jturn J S i p j = S j.
Proof. intro H. unfold jturn. destruct (Nat.eq_dec i j) as [E|N]; [destruct (H (eq_sym E))|reflexivity]. Qed.

Lemma brun_world J M i f : forall W S W0 s r, bworld pl be tn J M W mg S -> S i = JBusy (J i) W0 s -> brun (J i) f W s = r ->
  exists S', bworld pl be tn J M (fst r) mg S' /\ S' i = JBusy (J i) W0 (snd r) /\ forall j, j <> i -> S' j = S j.
Proof.
  induction f as [|f IH]; intros W S W0 s r H Hi; cbn [brun].
  - intros <-. exists S. auto.
  - cbv zeta. match goal with |- context [match ?X with Some _ => _ | None => _ end] => destruct X as [s1|] eqn:E end;
      [|intros <-; exists S; auto].
    intro Er. apply firstOf_pstep in E.
    destruct (IH (norm n (fill pl be (J i) W (mem (sh s1)))) (jturn J S i (JBusy (J i) W0 s1)) W0 s1 r) as (S' & B & D & F).
    + eapply bw_busy; [exact H|exact Hi|exact E|intro; apply norm_eq|apply jturn_same|intros; rewrite jturn_other by assumption; reflexivity].
    + apply jturn_same.
    + exact Er.
    + exists S'. split; [exact B|]. split; [exact D|]. intros j Hj. rewrite (F j Hj). rewrite jturn_other by exact Hj. reflexivity.
Qed.

End Run.

(** Six int32s in the first 24 bytes, three strings ("bc", "b", "ca"; the second is part of the
    first) with headers in bytes 40-87 and contents in bytes 96-99; then the first 24 bytes are
    sorted as three uint64s. *)
Definition exJobs (i : nat) : job :=
  match i with O => Job TI4 1 0 6 | 1%nat => Job TS 1 40 3 | _ => Job TU8 1 0 3 end.

Definition word64 (z : Z) : list Z := [z; 0; 0; 0; 0; 0; 0; 0].
Definition exBytes : bytes := fun a => if a <? 0 then 0 else
  nth (Z.to_nat a)
    ([3; 0; 0; 0;  255; 255; 255; 255;  7; 1; 0; 0;  0; 0; 0; 128;  7; 0; 0; 0;  254; 255; 255; 255]
     ++ repeat 9 16
     ++ word64 96 ++ word64 2 ++ word64 96 ++ word64 1 ++ word64 98 ++ word64 2
     ++ repeat 9 8
     ++ [98; 99; 99; 97]) 0.

Definition exB0 := brun plat64 false tiny 3 100 (exJobs 0) 20 exBytes (start (cProg (jcall plat64 false tiny (exJobs 0) exBytes)) (viewAs plat64 false (exJobs 0) exBytes) 3).
Definition exB1 := brun plat64 false tiny 3 100 (exJobs 1) 9 (fst exB0) (start (cProg (jcall plat64 false tiny (exJobs 1) (fst exB0))) (viewAs plat64 false (exJobs 1) (fst exB0)) 3).
Definition exB2 := brun plat64 false tiny 3 100 (exJobs 0) 300 (fst exB1) (snd exB0).
Definition exB3 := brun plat64 false tiny 3 100 (exJobs 2) 300 (fst exB2) (start (cProg (jcall plat64 false tiny (exJobs 2) (fst exB2))) (viewAs plat64 false (exJobs 2) (fst exB2)) 3).


Lemma exBytes_ok : isBytes exBytes.
Proof.
  intro a. unfold exBytes. destruct (a <? 0); [lia|].
  match goal with |- 0 <= nth _ ?l _ < 256 => assert (F : Forall (fun b => 0 <= b < 256) l) by
    (vm_compute; repeat (constructor; [split; [discriminate|reflexivity]|]); constructor);
    destruct (nth_in_or_default (Z.to_nat a) l 0) as [H|H]; [exact (proj1 (Forall_forall _ _) F _ H)|rewrite H; lia] end.
Qed.

(** Words are below 2^64 in any memory. *)
Lemma typed_number j W : isBytes W -> 0 <= jlen j < 2 ^ 63 -> In (jety j) [TI4; TU8] ->
  typedSlice plat64 (jety j) (viewAs plat64 false j W) (jslice j).
Proof.
  intros HW Hl He. split; [exact Hl|]. apply Forall_forall. intros v Hv. unfold contents in Hv. apply in_map_iff in Hv.
  destruct Hv as (i & <- & _). unfold viewAs, peek. destruct j as [e o b n]. cbn in *. destruct He as [<-|[<-|[]]]; cbn [build wellTyped wsize].
  - apply (load_range false 4 W _ HW). lia.
  - apply (load_range false 8 W _ HW). lia.
Qed.

Lemma exB0_mem : contents (viewAs plat64 false (exJobs 1) (fst exB0)) (Slice 0 3) = [StrH 96 [98; 99]; StrH 96 [98]; StrH 98 [99; 97]].
Proof. vm_compute. reflexivity. Qed.

Lemma exB_facts : isRet (snd exB0) = false /\ isRet (snd exB1) = false /\ isRet (snd exB2) = true /\ isRet (snd exB3) = true.
Proof. repeat split; vm_compute; reflexivity. Qed.

Lemma exB_sorted : contents (viewAs plat64 false (exJobs 0) (fst exB2)) (Slice 0 6) = map (fun z => z mod 2 ^ 32) [-2147483648; -2; -1; 3; 7; 263] /\
  contents (viewAs plat64 false (exJobs 2) (fst exB3)) (Slice 0 3) = [17179869183; 1129576398855; 18446744067267100672].
Proof. split; vm_compute; reflexivity. Qed.

Lemma jbusy_inj j W W' s s' : JBusy j W s = JBusy j W' s' -> W = W'.
Proof. intro E. injection E. auto. Qed.

Lemma exReg a : (region plat64 (exJobs 0) a -> 0 <= a < 24) /\ (region plat64 (exJobs 1) a -> 40 <= a < 88) /\
  (region plat64 (exJobs 2) a -> 0 <= a < 24).
Proof. repeat split; destruct H as [A B]; vm_compute in A, B |- *; assumption. Qed.

(** The int32 call and the string call are under way at the same time; when the former is over,
    its bytes are sorted as uint64s, the string call still being under way. *)
Example ex_bytes : exists S W1 W2 s0 s1 s2, bworld plat64 false tiny exJobs 3 (fst exB3) 3 S /\
  S 0%nat = JOver (exJobs 0) s0 /\ S 1%nat = JBusy (exJobs 1) W1 s1 /\ S 2%nat = JBusy (exJobs 2) W2 s2 /\
  ~ returned s1 tt /\ returned s2 tt.
Proof.
  destruct exB_facts as (F0 & F1 & F2 & F3).
  assert (W0 : bworld plat64 false tiny exJobs 3 exBytes 3 (fun i => JIdle (exJobs i))) by (constructor; [exact exBytes_ok|lia]).
  set (S1 := jturn exJobs (fun i => JIdle (exJobs i)) 0 (JBusy (exJobs 0) exBytes (start (cProg (jcall plat64 false tiny (exJobs 0) exBytes)) (viewAs plat64 false (exJobs 0) exBytes) 3))).
  assert (G1 : bworld plat64 false tiny exJobs 3 exBytes 3 S1).
  { apply (bw_call plat64 false tiny exJobs 3 _ _ _ _ 0%nat W0 eq_refl).
    - apply typed_number; [exact exBytes_ok|cbn; lia|cbn; tauto].
    - left. reflexivity.
    - intros a _ (x & _ & []).
    - intros j Wj s a Hj. discriminate Hj.
    - intros j Wj s a Hj. discriminate Hj.
    - apply jturn_same.
    - intros j Hj. unfold S1. rewrite jturn_other by exact Hj. reflexivity. }
  destruct (brun_world plat64 false tiny 3 100 exJobs 3 0%nat 20 _ _ _ _ exB0 G1 (jturn_same _ _ _ _) eq_refl) as (S2 & G2 & D2 & E2).
  assert (B2 := bworld_orderly plat64 false tiny plat64_ok tiny_ok exJobs 3 _ _ _ G2). destruct B2 as (HB2 & _).
  assert (Hh : forall a, heap plat64 false (exJobs 1) (fst exB0) a -> 96 <= a < 100).
  { intros a (x & Hx & Hr). change (jlen (exJobs 1)) with 3 in Hx.
    assert (HI : In (viewAs plat64 false (exJobs 1) (fst exB0) x) (contents (viewAs plat64 false (exJobs 1) (fst exB0)) (Slice 0 3))).
    { apply in_map_iff. exists (Z.to_nat x). split; [f_equal; cbn [off]; lia|apply in_seq; cbn [len]; lia]. }
    rewrite exB0_mem in HI. change (refers TS (viewAs plat64 false (exJobs 1) (fst exB0) x) a) in Hr.
    destruct HI as [E|[E|[E|[]]]]; rewrite <- E in Hr; cbn in Hr; lia. }
  set (S3 := jturn exJobs S2 1 (JBusy (exJobs 1) (fst exB0) (start (cProg (jcall plat64 false tiny (exJobs 1) (fst exB0))) (viewAs plat64 false (exJobs 1) (fst exB0)) 3))).
  assert (G3 : bworld plat64 false tiny exJobs 3 (fst exB0) 3 S3).
  { apply (bw_call plat64 false tiny exJobs 3 _ _ _ _ 1%nat G2).
    - rewrite E2 by discriminate. unfold S1. rewrite jturn_other by discriminate. reflexivity.
    - split; [split; [discriminate|reflexivity]|]. change (Forall (wellTyped plat64 TS) (contents (viewAs plat64 false (exJobs 1) (fst exB0)) (Slice 0 3))).
      rewrite exB0_mem. repeat constructor.
    - left. reflexivity.
    - intros a Hr Ha. apply Hh in Ha. apply exReg in Hr. lia.
    - intros j Wj s a Hj Hr Ha. destruct j as [|j]; [|rewrite E2 in Hj by discriminate; unfold S1 in Hj; rewrite jturn_other in Hj by discriminate; discriminate].
      apply exReg in Hr. destruct Ha as [Ha|Ha]; [apply exReg in Ha|apply Hh in Ha]; lia.
    - intros j Wj s a Hj Ha. destruct j as [|j]; [|rewrite E2 in Hj by discriminate; unfold S1 in Hj; rewrite jturn_other in Hj by discriminate; discriminate].
      destruct Ha as (x & _ & []).
    - apply jturn_same.
    - intros j Hj. unfold S3. rewrite jturn_other by exact Hj. reflexivity. }
  destruct (brun_world plat64 false tiny 3 100 exJobs 3 1%nat 9 _ _ _ _ exB1 G3 (jturn_same _ _ _ _) eq_refl) as (S4 & G4 & D4 & E4).
  assert (D4' : S4 0%nat = JBusy (exJobs 0) exBytes (snd exB0)).
  { rewrite E4 by discriminate. unfold S3. rewrite jturn_other by discriminate. exact D2. }
  destruct (brun_world plat64 false tiny 3 100 exJobs 3 0%nat 300 _ _ _ _ exB2 G4 D4' eq_refl) as (S5 & G5 & D5 & E5).
  set (S6 := jturn exJobs S5 0 (JOver (exJobs 0) (snd exB2))).
  assert (G6 : bworld plat64 false tiny exJobs 3 (fst exB2) 3 S6).
  { apply (bw_return plat64 false tiny exJobs 3 _ _ _ _ 0%nat _ _ G5 D5); [apply isRet_returned; exact F2|apply jturn_same|].
    intros j Hj. unfold S6. rewrite jturn_other by exact Hj. reflexivity. }
  destruct (bworld_orderly plat64 false tiny plat64_ok tiny_ok exJobs 3 _ _ _ G6) as (HB6 & _).
  assert (D6 : S6 1%nat = JBusy (exJobs 1) (fst exB0) (snd exB1)).
  { unfold S6. rewrite jturn_other by discriminate. rewrite E5 by discriminate. exact D4. }
  assert (I6 : forall j, S6 (2 + j)%nat = JIdle (exJobs (2 + j))).
  { intro j. unfold S6. rewrite jturn_other by discriminate. rewrite E5, E4 by discriminate. unfold S3. rewrite jturn_other by discriminate.
    rewrite E2 by discriminate. unfold S1. rewrite jturn_other by discriminate. reflexivity. }
  set (S7 := jturn exJobs S6 2 (JBusy (exJobs 2) (fst exB2) (start (cProg (jcall plat64 false tiny (exJobs 2) (fst exB2))) (viewAs plat64 false (exJobs 2) (fst exB2)) 3))).
  assert (G7 : bworld plat64 false tiny exJobs 3 (fst exB2) 3 S7).
  { apply (bw_call plat64 false tiny exJobs 3 _ _ _ _ 2%nat G6 (I6 O)).
    - apply typed_number; [exact HB6|cbn; lia|cbn; tauto].
    - left. reflexivity.
    - intros a _ (x & _ & []).
    - intros [|[|j]] Wj s a Hj Hr Ha.
      + unfold S6 in Hj. rewrite jturn_same in Hj. discriminate.
      + destruct Ha as [Ha|(x & _ & [])]. apply exReg in Hr. apply exReg in Ha. lia.
      + assert (X := I6 j); cbn [Nat.add] in X; rewrite X in Hj; discriminate Hj.
    - intros [|[|j]] Wj s a Hj Ha Hr.
      + unfold S6 in Hj. rewrite jturn_same in Hj. discriminate.
      + rewrite D6 in Hj. apply jbusy_inj in Hj. rewrite <- Hj in Ha. apply Hh in Ha. apply exReg in Hr. lia.
      + assert (X := I6 j); cbn [Nat.add] in X; rewrite X in Hj; discriminate Hj.
    - apply jturn_same.
    - intros j Hj. unfold S7. rewrite jturn_other by exact Hj. reflexivity. }
  destruct (brun_world plat64 false tiny 3 100 exJobs 3 2%nat 300 _ _ _ _ exB3 G7 (jturn_same _ _ _ _) eq_refl) as (S8 & G8 & D8 & E8).
  exists S8, (fst exB0), (fst exB2), (snd exB2), (snd exB1), (snd exB3).
  split; [exact G8|]. split; [rewrite E8 by discriminate; unfold S7; rewrite jturn_other by discriminate; apply jturn_same|].
  split; [rewrite E8 by discriminate; unfold S7; rewrite jturn_other by discriminate; exact D6|]. split; [exact D8|].
  split; [exact (isRet_not _ F1)|apply isRet_returned; exact F3].
Qed.
