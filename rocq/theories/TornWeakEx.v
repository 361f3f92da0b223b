(** * Elements in parts under the Go memory model: examples *)

From Coq Require Import List ZArith Lia Bool Arith Permutation.
From Verif Require Import Lang Trace HappensBefore Weak Scalar Typed Kinds Spec Lsw Calls Torn TornFacts TornTop TornWeak TornWeakFacts TornWeakTop
  Bytes BytesFacts BytesEx Witness Examples TornEx.
Import ListNotations.
Open Scope Z_scope.

(** int64 in two words: the caller and a goroutine are both in the middle of writing an element. *)
Lemma ex_torn_weak : exists F0 w, pweakly 2 half unhalf exCall32 3 F0 w /\
  (exists p, claim (pmain w) = (Some (34, true), p) /\ p 0%nat = None /\ p 1%nat <> None) /\
  (exists p, nth_error (map claim (pthr w)) 1 = Some (Some (18, true), p) /\ p 0%nat <> None /\ p 1%nat = None).
Proof.
  destruct ex_torn as ((n & s & HT & (p1 & N1 & P1) & (p2 & N2 & P2) & _) & _).
  destruct (parts_weak_all 2 half unhalf exCall32 3 n s ltac:(lia) HT) as (F0 & w & HW & _ & E1 & E2 & _).
  exists F0, w. split; [exact HW|]. rewrite E1, E2. unfold claims in N1, N2. cbn [nth_error] in N1, N2. split.
  - exists p1. split; [congruence|exact P1].
  - exists p2. split; [exact N2|exact P2].
Qed.

(** A call that returns, byte by byte. *)
Lemma bytewise_weak_of n s : breach plat64 false tiny (exJobs 1) exBytes 3 n s -> treturned s tt -> exists F0 w,
  bweakly plat64 false tiny (exJobs 1) exBytes 3 F0 w /\ view (fst (pmain w)) = HRet tt /\ length (phist w) = n.
Proof.
  intros (F & mg0 & Hm & HF & R) Hr.
  destruct (trun_etexec _ _ _ _ _ _ _ _ _ R) as (tr & Hl & He).
  assert (Hnp : (0 < Z.to_nat (esize plat64 (jety (exJobs 1))))%nat) by (apply Nat.ltb_lt; vm_compute; reflexivity).
  destruct (pstrong_weak _ _ _ _ _ _ F Hnp mg0 _ Hm tr s He) as (_ & w & G1 & G2 & G3 & _).
  exists F, w. split; [split; [exact HF|exact G1]|]. rewrite G3. split; [exact Hr|]. rewrite <- Hl, <- G2, map_length. reflexivity.
Qed.

Lemma exStr_apart a : region plat64 (exJobs 1) a -> heap plat64 false (exJobs 1) exBytes a -> False.
Proof.
  intros Hr (x & Hx & Ha). apply exReg in Hr. change (jlen (exJobs 1)) with 3 in Hx.
  assert (HI : In (viewAs plat64 false (exJobs 1) exBytes x) (contents (viewAs plat64 false (exJobs 1) exBytes) (Slice 0 3))).
  { apply in_map_iff. exists (Z.to_nat x). split; [f_equal; cbn [off]; lia|apply in_seq; cbn [len]; lia]. }
  rewrite exStr_mem in HI. change (refers TS (viewAs plat64 false (exJobs 1) exBytes x) a) in Ha.
  destruct HI as [E|[E|[E|[]]]]; rewrite <- E in Ha; cbn in Ha; lia.
Qed.

Lemma ex_bytewise_weak : exists F0 w,
  bweakly plat64 false tiny (exJobs 1) exBytes 3 F0 w /\ view (fst (pmain w)) = HRet tt /\
  exists W, bseen plat64 false tiny (exJobs 1) exBytes F0 w W.
Proof.
  destruct ex_bytewise as (n & s & HB & Hr). destruct (bytewise_weak_of n s HB Hr) as (F0 & w & A & B & _).
  exists F0, w. split; [exact A|]. split; [exact B|]. apply bseen_some; [exact plat64_ok|exact exStr_apart].
Qed.

(** The machine is weaker than that of [Torn.v] and that of [Weak.v]: the caller starts a goroutine which writes
    (1,1) to cell 0; when the goroutine has finished, the caller reads the cell, and gets the new first part with the old
    second part. *)
Definition pairPart (x : Z * Z) (q : nat) : Z := match q with O => fst x | _ => snd x end.
Definition pairJoin (f : nat -> Z) : Z * Z := (f 0%nat, f 1%nat).
Definition mixBody (p : unit) : cmd unit (Z * Z) unit := Write 0 (1, 1) (Ret tt).
Definition mixProg : cmd unit (Z * Z) (Z * Z) := Fork tt (Read 0 (fun x => Ret x)).

Lemma mixed_read : exists w, pwexec 2 pairPart pairJoin mixBody 1 (fun x => x = 0) (fun _ _ => 0) mixProg w /\
  view (fst (pmain w)) = HRet (1, 0).
Proof.
  pose (Fz := fun (_ : Z) (_ : nat) => 0). pose (Fo := fun (_ : Z) (_ : nat) => 1).
  pose (r := Read 0 (fun x => Ret x) : cmd unit (Z * Z) (Z * Z)). pose (t0 := Ret tt : cmd unit (Z * Z) unit).
  pose (b := mixBody tt). pose (p1 := pset idle 0 1 : pend (V := Z)). pose (p2 := pset p1 1 1).
  pose (q1 := pset idle 0 1 : pend (V := Z)). pose (q2 := pset q1 1 0).
  pose (h1 := [(EvGo 0 1, None)] : history (T := Z)). pose (h2 := h1 ++ [(EvWrite 1 0, Some 1)]).
  pose (h3 := h2 ++ [(EvWrite 1 1, Some 1)]). pose (h4 := h3 ++ [(EvStep 1, None)]). pose (h5 := h4 ++ [(EvRead 0 0, None)]).
  pose (h6 := h5 ++ [(EvRead 0 1, None)]).
  pose (E := pwexec 2 pairPart pairJoin mixBody 1 (fun x => x = 0) Fz mixProg).
  assert (S1 : E (Pst (r, idle) [(b, idle)] 0 0 h1)).
  { eapply pwexec_step; [apply pwexec_start|].
    apply (pwstep_in 2 pairPart pairJoin mixBody 1 (fun x => x = 0) Fz (EvGo 0 1) (mixProg, idle) [] 0 0 [] Fz 0
      (TSt (r, idle) [(b, idle)] Fz 0 0 0)); [lia|discriminate|].
    apply (es_main 2 pairPart pairJoin mixBody (EvGo 0 1) mixProg idle [] Fz 0 0 0 r idle Fz 0 0 [b]).
    apply (el_other 2 pairPart pairJoin mixBody 0 0 0 mixProg idle Fz 0 0 (fun _ => (0, 0)) r 0 0 [b]); reflexivity. }
  assert (S2 : E (Pst (r, idle) [(b, p1)] 0 0 h2)).
  { eapply pwexec_step; [exact S1|].
    apply (pwstep_in 2 pairPart pairJoin mixBody 1 (fun x => x = 0) Fz (EvWrite 1 0) (r, idle) [(b, idle)] 0 0 h1 Fz 0
      (TSt (r, idle) [(b, p1)] (mset Fz 0 0 1) 0 0 0)); [lia|discriminate|].
    apply (es_thr 2 pairPart pairJoin mixBody (EvWrite 1 0) (r, idle) [] b idle [] Fz 0 0 0 b p1 (mset Fz 0 0 1) 0 0 []).
    apply (el_write 2 pairPart pairJoin mixBody 0 1 1 b idle Fz 0 0 0 (1, 1) t0 0); [reflexivity|lia|reflexivity]. }
  assert (S3 : E (Pst (r, idle) [(b, p2)] 0 0 h3)).
  { eapply pwexec_step; [exact S2|].
    apply (pwstep_in 2 pairPart pairJoin mixBody 1 (fun x => x = 0) Fz (EvWrite 1 1) (r, idle) [(b, p1)] 0 0 h2 Fz 0
      (TSt (r, idle) [(b, p2)] (mset Fz 0 1 1) 0 0 0)); [lia|discriminate|].
    apply (es_thr 2 pairPart pairJoin mixBody (EvWrite 1 1) (r, idle) [] b p1 [] Fz 0 0 0 b p2 (mset Fz 0 1 1) 0 0 []).
    apply (el_write 2 pairPart pairJoin mixBody 0 1 1 b p1 Fz 0 0 0 (1, 1) t0 1); [reflexivity|lia|reflexivity]. }
  assert (S4 : E (Pst (r, idle) [(t0, idle)] 0 0 h4)).
  { eapply pwexec_step; [exact S3|].
    apply (pwstep_in 2 pairPart pairJoin mixBody 1 (fun x => x = 0) Fz (EvStep 1) (r, idle) [(b, p2)] 0 0 h3 Fz 0
      (TSt (r, idle) [(t0, idle)] Fz 0 0 0)); [lia|discriminate|].
    apply (es_thr 2 pairPart pairJoin mixBody (EvStep 1) (r, idle) [] b p2 [] Fz 0 0 0 t0 idle Fz 0 0 []).
    apply (el_write_done 2 pairPart pairJoin mixBody 0 1 1 b p2 Fz 0 0 0 (1, 1) t0); [reflexivity|].
    intros [|[|q]] Hq; [discriminate|discriminate|lia]. }
  assert (S5 : E (Pst (r, q1) [(t0, idle)] 0 0 h5)).
  { eapply pwexec_step; [exact S4|].
    apply (pwstep_in 2 pairPart pairJoin mixBody 1 (fun x => x = 0) Fz (EvRead 0 0) (r, idle) [(t0, idle)] 0 0 h4 Fo 0
      (TSt (r, q1) [(t0, idle)] Fo 0 0 0)); [lia| |].
    - intros t y Ey _. injection Ey as _ <-. left. exists 1%nat. split; [exists 1%nat; reflexivity|].
      intros j v (t' & H) Hb. cbn in H. apply hb_order in Hb. destruct j as [|[|[|[|[|j]]]]]; try lia; discriminate.
    - apply (es_main 2 pairPart pairJoin mixBody (EvRead 0 0) r idle [(t0, idle)] Fo 0 0 0 r q1 Fo 0 0 []).
      apply (el_read 2 pairPart pairJoin mixBody 0 0 1 r idle Fo 0 0 0 (fun x => Ret x) 0); [reflexivity|lia|reflexivity]. }
  assert (S6 : E (Pst (r, q2) [(t0, idle)] 0 0 h6)).
  { eapply pwexec_step; [exact S5|].
    apply (pwstep_in 2 pairPart pairJoin mixBody 1 (fun x => x = 0) Fz (EvRead 0 1) (r, q1) [(t0, idle)] 0 0 h5 Fz 0
      (TSt (r, q2) [(t0, idle)] Fz 0 0 0)); [lia| |].
    - intros t y Ey _. injection Ey as _ <-. right. split; [reflexivity|]. intros j v (t' & H).
      assert (j = 2%nat) by (cbn in H; destruct j as [|[|[|[|[|[|j]]]]]]; try discriminate; reflexivity). subst j. cbn.
      assert (G : forall i k, hb [EvGo 0 1; EvWrite 1 0; EvWrite 1 1; EvStep 1; EvRead 0 0; EvRead 0 1] i k ->
                  (i = 2 \/ i = 3)%nat -> (k = 2 \/ k = 3)%nat).
      { induction 1 as [i k ei ek u L H1 H2 D1 D2|i k u1 u2 ek L H1 H2 D|i k u1 u2 L H1 H2|i k l H1 IH1 H2 IH2]; intro Hi.
        - destruct Hi as [->| ->]; injection H1 as <-; cbn in D1; subst u;
            destruct k as [|[|[|[|[|[|[|k]]]]]]]; try lia; try discriminate; injection H2 as <-; cbn in D2; discriminate.
        - destruct Hi as [->| ->]; discriminate.
        - destruct Hi as [->| ->]; discriminate.
        - auto. }
      intro Hb. destruct (G _ _ Hb ltac:(auto)); discriminate.
    - apply (es_main 2 pairPart pairJoin mixBody (EvRead 0 1) r q1 [(t0, idle)] Fz 0 0 0 r q2 Fz 0 0 []).
      apply (el_read 2 pairPart pairJoin mixBody 0 0 1 r q1 Fz 0 0 0 (fun x => Ret x) 1); [reflexivity|lia|reflexivity]. }
  exists (Pst (Ret (1, 0), idle) [(t0, idle)] 0 0 (h6 ++ [(EvStep 0, None)])). split; [|reflexivity].
  eapply pwexec_step; [exact S6|].
  apply (pwstep_in 2 pairPart pairJoin mixBody 1 (fun x => x = 0) Fz (EvStep 0) (r, q2) [(t0, idle)] 0 0 h6 Fz 0
    (TSt (Ret (1, 0), idle) [(t0, idle)] Fz 0 0 0)); [lia|discriminate|].
  apply (es_main 2 pairPart pairJoin mixBody (EvStep 0) r q2 [(t0, idle)] Fz 0 0 0 (Ret (1, 0)) idle Fz 0 0 []).
  apply (el_read_done 2 pairPart pairJoin mixBody 0 0 1 r q2 Fz 0 0 0 (fun x => Ret x) (fun q => match q with O => 1 | _ => 0 end)); [reflexivity|].
  intros [|[|q]] Hq; [reflexivity|reflexivity|lia].
Qed.
