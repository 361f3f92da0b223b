(** * Any number of calls at any time *)

From Coq Require Import List ZArith Lia Bool Arith.
From Verif Require Import Lang Scalar Typed Kinds Spec Calls Guarantee TopFacts Witness Examples.
Import ListNotations.
Open Scope Z_scope.

Lemma share_share {P T R} (s : st P T R) w mg w' mg' : share (share s w mg) w' mg' = share s w' mg'.
Proof. reflexivity. Qed.

Lemma share_self {P T R} (s : st P T R) : share s (mem (sh s)) (maxg (sh s)) = s.
Proof. destruct s as [m ts [w n g c]]. reflexivity. Qed.

Section Many.
Variables (pl : plat) (tn : tuning).
Hypothesis Hpl : platOk pl.
Hypothesis Htn : tuningOk pl tn.
Context {T : Type}.
Variable C : nat -> call T.
Hypothesis HC : forall i, sortCall pl tn (C i).
Variable M : Z.

(** The other calls are the environment of a call; those that have returned are at rest. *)
Definition orderly (w : Z -> T) (mg : Z) (S : forall i, phase (cP (C i)) T) : Prop :=
  0 <= mg <= M /\
  (forall i s, S i = Busy s -> exists k, reach (C i) M k (share s w mg)) /\
  (forall i s, S i = Over s -> returned s tt /\ forall c, In c (thr s) -> exiting c) /\
  (forall i j s s' x, S i = Busy s -> S j = Busy s' -> i <> j -> cCells (C i) x -> cCells (C j) x -> False).

Lemma reach_env i k s w mg w' mg' : reach (C i) M k (share s w mg) -> 0 <= mg' <= M ->
  (forall x, cCells (C i) x -> w' x = w x) -> reach (C i) M k (share s w' mg').
Proof.
  intros (g & Hg & H) Hm Hw. exists g. split; [exact Hg|]. rewrite <- (share_share s w mg w' mg').
  apply env_share; [exact H|exact Hm|exact Hw].
Qed.

Lemma over_step i s w mg s' : returned s tt -> (forall c, In c (thr s) -> exiting c) ->
  pstep (cProcs (C i)) (share s w mg) s' ->
  returned s' tt /\ (forall c, In c (thr s') -> exiting c) /\ forall x, mem (sh s') x = w x.
Proof.
  intros Hr Ht Hs.
  destruct (after_return (cProcs (C i)) M (fun _ => True) 1 (share s w mg) s' tt) as (A & B & D); auto.
  eapply exec_prog; [apply exec_refl|exact Hs].
Qed.

Theorem world_orderly w mg S : world C M w mg S -> orderly w mg S.
Proof.
  induction 1 as [w mg Hm|w mg S S' i _ IH Hi Hw Hd E En|w mg S S' i s s' _ IH Hi Hs E En|w mg S S' i s _ IH Hi Hr E En
                 |w mg S S' i s s' _ IH Hi Hs E En|w mg S w' mg' _ IH Hm Hw].
  - split; [exact Hm|]. split; [|split]; intros; discriminate.
  - destruct IH as (Hm & HB & HO & HD). split; [exact Hm|]. split; [|split].
    + intros j s Hj. destruct (Nat.eq_dec j i) as [->|Ne]; [|apply HB; rewrite <- (En j Ne); exact Hj].
      rewrite E in Hj. injection Hj as <-. exists O, mg. split; [exact Hm|].
      apply (env_share (cProcs (C i)) M (cCells (C i)) 0 _ (start (cProg (C i)) (cInit (C i)) mg) w mg); [constructor|exact Hm|exact Hw].
    + intros j s Hj. destruct (Nat.eq_dec j i) as [->|Ne]; [rewrite E in Hj; discriminate|].
      apply (HO j). rewrite <- (En j Ne); exact Hj.
    + intros j1 j2 s1 s2 x H1 H2 Ne X1 X2.
      destruct (Nat.eq_dec j1 i) as [->|N1]; destruct (Nat.eq_dec j2 i) as [->|N2].
      * exact (Ne eq_refl).
      * rewrite (En j2 N2) in H2. exact (Hd j2 s2 x H2 X2 X1).
      * rewrite (En j1 N1) in H1. exact (Hd j1 s1 x H1 X1 X2).
      * rewrite (En j1 N1) in H1. rewrite (En j2 N2) in H2. exact (HD j1 j2 s1 s2 x H1 H2 Ne X1 X2).
  - destruct IH as (Hm & HB & HO & HD). destruct (HB i s Hi) as [k R].
    assert (Fr := g_frame pl tn Hpl Htn (C i) (HC i) M k _ R s' Hs). cbn [share sh mem] in Fr.
    assert (Eg : maxg (sh s') = mg) by (rewrite (pstep_maxg _ _ _ Hs); reflexivity).
    assert (HD' : forall i0 j s0 s'0 x, S' i0 = Busy s0 -> S' j = Busy s'0 -> i0 <> j ->
                    cCells (C i0) x -> cCells (C j) x -> False).
    { intros j1 j2 s1 s2 x H1 H2 Ne X1 X2.
      assert (B1 : exists u, S j1 = Busy u) by (destruct (Nat.eq_dec j1 i) as [->|N1]; [eauto|rewrite (En j1 N1) in H1; eauto]).
      assert (B2 : exists u, S j2 = Busy u) by (destruct (Nat.eq_dec j2 i) as [->|N2]; [eauto|rewrite (En j2 N2) in H2; eauto]).
      destruct B1 as [u1 B1], B2 as [u2 B2]. exact (HD j1 j2 u1 u2 x B1 B2 Ne X1 X2). }
    split; [exact Hm|]. split; [|split; [|exact HD']].
    + intros j u Hj. destruct (Nat.eq_dec j i) as [->|Ne].
      * rewrite E in Hj. injection Hj as <-. rewrite <- Eg, share_self. destruct R as (g0 & Hg0 & R).
        exists (Datatypes.S k), g0. split; [exact Hg0|]. eapply exec_prog; eauto.
      * rewrite (En j Ne) in Hj. destruct (HB j u Hj) as [k' R']. exists k'.
        eapply reach_env; [exact R'|exact Hm|]. intros x Hx. apply Fr. intro Hx'. exact (HD i j s u x Hi Hj (not_eq_sym Ne) Hx' Hx).
    + intros j u Hj. destruct (Nat.eq_dec j i) as [->|Ne]; [rewrite E in Hj; discriminate|].
      apply (HO j). rewrite <- (En j Ne); exact Hj.
  - destruct IH as (Hm & HB & HO & HD). split; [exact Hm|]. split; [|split].
    + intros j u Hj. destruct (Nat.eq_dec j i) as [->|Ne]; [rewrite E in Hj; discriminate|].
      apply (HB j). rewrite <- (En j Ne); exact Hj.
    + intros j u Hj. destruct (Nat.eq_dec j i) as [->|Ne].
      * rewrite E in Hj. injection Hj as <-. split; [exact Hr|]. destruct (HB i s Hi) as [k R].
        exact (proj2 (g_goal pl tn Hpl Htn (C i) (HC i) M k _ R tt Hr)).
      * apply (HO j). rewrite <- (En j Ne); exact Hj.
    + intros j1 j2 s1 s2 x H1 H2 Ne.
      destruct (Nat.eq_dec j1 i) as [->|N1]; [rewrite E in H1; discriminate|].
      destruct (Nat.eq_dec j2 i) as [->|N2]; [rewrite E in H2; discriminate|].
      rewrite (En j1 N1) in H1. rewrite (En j2 N2) in H2. exact (HD j1 j2 s1 s2 x H1 H2 Ne).
  - destruct IH as (Hm & HB & HO & HD). destruct (HO i s Hi) as [Hr Ht].
    destruct (over_step i s w mg s' Hr Ht Hs) as (A & B & D).
    split; [exact Hm|]. split; [|split].
    + intros j u Hj. destruct (Nat.eq_dec j i) as [->|Ne]; [rewrite E in Hj; discriminate|].
      rewrite (En j Ne) in Hj. destruct (HB j u Hj) as [k' R']. exists k'. eapply reach_env; [exact R'|exact Hm|auto].
    + intros j u Hj. destruct (Nat.eq_dec j i) as [->|Ne].
      * rewrite E in Hj. injection Hj as <-. auto.
      * apply (HO j). rewrite <- (En j Ne); exact Hj.
    + intros j1 j2 s1 s2 x H1 H2 Ne.
      destruct (Nat.eq_dec j1 i) as [->|N1]; [rewrite E in H1; discriminate|].
      destruct (Nat.eq_dec j2 i) as [->|N2]; [rewrite E in H2; discriminate|].
      rewrite (En j1 N1) in H1. rewrite (En j2 N2) in H2. exact (HD j1 j2 s1 s2 x H1 H2 Ne).
  - destruct IH as (_ & HB & HO & HD). split; [exact Hm|]. split; [|split; [exact HO|exact HD]].
    intros j u Hj. destruct (HB j u Hj) as [k R]. exists k. eapply reach_env; [exact R|exact Hm|].
    intros x Hx. exact (Hw j u x Hj Hx).
Qed.

(** A busy call behaves as if it were alone; two busy calls are apart; one that is over is at
    rest. *)
Theorem many_calls w mg S : world C M w mg S ->
  (forall i s, S i = Busy s ->
     (exists k, reach (C i) M k (share s w mg)) /\ ~ panicked s /\ ~ race s /\
     (returned s tt -> cGoal (C i) w) /\
     (returned s tt \/ exists s', pstep (cProcs (C i)) (share s w mg) s')) /\
  (forall i j s s' x b x' b', S i = Busy s -> S j = Busy s' -> i <> j ->
     In (Some (x, b)) (accesses s) -> In (Some (x', b')) (accesses s') -> x <> x') /\
  (forall i s, S i = Over s -> ~ panicked s /\ (forall x b, ~ In (Some (x, b)) (accesses s)) /\
     forall s', pstep (cProcs (C i)) (share s w mg) s' -> forall x, mem (sh s') x = w x).
Proof.
  intro H. destruct (world_orderly w mg S H) as (Hm & HB & HO & HD). split; [|split].
  - intros i s Hi. destruct (HB i s Hi) as [k R]. split; [exists k; exact R|].
    split; [exact (g_no_panic pl tn Hpl Htn (C i) (HC i) M k _ R)|].
    split; [exact (g_no_race pl tn Hpl Htn (C i) (HC i) M k _ R)|].
    split; [intro Hr; exact (proj1 (g_goal pl tn Hpl Htn (C i) (HC i) M k _ R tt Hr))|].
    destruct (g_progress pl tn Hpl Htn (C i) (HC i) M k _ R) as [[[] Hr]|Hp]; auto.
  - intros i j s s' x b x' b' Hi Hj Ne A1 A2 ->.
    destruct (HB i s Hi) as [k R]. destruct (HB j s' Hj) as [k' R'].
    apply (HD i j s s' x' Hi Hj Ne).
    + exact (g_in_bounds pl tn Hpl Htn (C i) (HC i) M k _ R x' b A1).
    + exact (g_in_bounds pl tn Hpl Htn (C j) (HC j) M k' _ R' x' b' A2).
  - intros i s Hi. destruct (HO i s Hi) as [Hr Ht]. split; [|split].
    + intros [E|(c & Hc & E)]; [unfold returned in Hr; rewrite Hr in E; discriminate|].
      destruct (exiting_view c (Ht c Hc)) as [[a Ha]|[c' Hc']]; congruence.
    + intros x b [E|E].
      * unfold access in E. rewrite Hr in E. discriminate.
      * apply in_map_iff in E. destruct E as (c & E & Hc). unfold access in E.
        destruct (exiting_view c (Ht c Hc)) as [[a Ha]|[c' Hc']]; [rewrite Ha in E|rewrite Hc' in E]; discriminate.
    + intros s' Hs. exact (proj2 (proj2 (over_step i s w mg s' Hr Ht Hs))).
Qed.

End Many.

(** ** Example *)

Definition turn {T} (C : nat -> call T) (S : forall i, phase (cP (C i)) T) (i : nat) (p : phase (cP (C i)) T)
  : forall j, phase (cP (C j)) T :=
  fun j => match Nat.eq_dec i j with left E => eq_rect i (fun j => phase (cP (C j)) T) p j E | right _ => S j end.

Lemma turn_same {T} (C : nat -> call T) S i p : turn C S i p i = p.
Proof. unfold turn. destruct (Nat.eq_dec i i) as [E|N]; [|destruct (N eq_refl)]. rewrite (Eqdep_dec.UIP_refl_nat i E). reflexivity. Qed.

Lemma turn_other {T} (C : nat -> call T) S i p j : j <> i -> turn C S i p j = S j.
Proof. intro H. unfold turn. destruct (Nat.eq_dec i j) as [E|N]; [destruct (H (eq_sym E))|reflexivity]. Qed.

Lemma world_rotate {T} (C : nat -> call T) M f : forall n w mg S i s u r, world C M w mg S -> S i = Busy s ->
  share s w mg = u -> rotate (cProcs (C i)) f n u = r ->
  exists s' S', share s' (mem (sh r)) mg = r /\ world C M (mem (sh r)) mg S' /\ S' i = Busy s' /\ forall j, j <> i -> S' j = S j.
Proof.
  induction f as [|f IH]; intros n w mg S i s u r H Hi <-; cbn [rotate].
  - intros <-. exists s, S. auto.
  - cbv zeta. match goal with |- context [match ?X with Some _ => _ | None => _ end] => destruct X as [s1|] eqn:E end;
      [|intros <-; exists s, S; auto].
    intro Er. apply firstOf_pstep in E.
    assert (Eg : maxg (sh s1) = mg) by (rewrite (pstep_maxg _ _ _ E); reflexivity).
    destruct (IH (Datatypes.S n) (mem (sh s1)) mg (turn C S i (Busy s1)) i s1 s1 r) as (s' & S' & A & B & D & F);
      [| | |exact Er|].
    + eapply world_busy; [exact H|exact Hi|exact E|apply turn_same|intros; rewrite turn_other by assumption; reflexivity].
    + apply turn_same.
    + rewrite <- Eg. apply share_self.
    + exists s', S'. split; [exact A|]. split; [exact B|]. split; [exact D|].
      intros j Hj. rewrite (F j Hj). apply turn_other, Hj.
Qed.

Lemma contents_cells {T} (w w' : Z -> T) s : contents w s = contents w' s -> forall x, cellsOf s x -> w x = w' x.
Proof.
  unfold contents, cellsOf. intros E x Hx.
  assert (F : forall l, map (fun n => w (off s + Z.of_nat n)) l = map (fun n => w' (off s + Z.of_nat n)) l ->
              forall n, In n l -> w (off s + Z.of_nat n) = w' (off s + Z.of_nat n)).
  { induction l as [|a l IH]; cbn; [easy|]. intros H n [->|Hn]; injection H; auto. }
  specialize (F _ E (Z.to_nat (x - off s))). rewrite Z2Nat.id in F by lia. replace (off s + (x - off s)) with x in F by lia.
  apply F, in_seq. lia.
Qed.

(** Call 0 sorts one slice, call 1 another; call 2 sorts the first slice again. *)
Definition exMem3 (i : Z) : Z := nth (Z.to_nat (i - 5)) exSorted 0.
Definition exCall3 : call Z := typedCall plat64 tiny 1 TI8 exSlice exMem3.
Definition exCalls (i : nat) : call Z := match i with O => exCall | 1%nat => exCall2 | _ => exCall3 end.

Example ex_calls i : sortCall plat64 tiny (exCalls i).
Proof.
  destruct i as [|[|i]]; [exact ex_int_call|exact (proj1 ex_two)|].
  refine (call_typed plat64 tiny TI8 1 exSlice exMem3 _ (or_introl eq_refl)).
  apply (@typed_by TI8 exMem3 exSlice (inRange 64)); [simpl; lia|intros x H; apply inRange_spec in H; exact H|vm_compute; reflexivity].
Qed.

(** Call 1 begins while call 0 is at work and has other goroutines; call 2 begins when call 0 is
    over and call 1 is still at work. *)
Definition exRun0 : st (cP exCall) Z unit := rotate (cProcs exCall) (Z.to_nat 645) 0 (start (cProg exCall) bothMem 3).
Definition exRun1 : st (cP exCall2) Z unit := rotate (cProcs exCall2) (Z.to_nat 645) 0 (start (cProg exCall2) (mem (sh exRun0)) 3).
Definition exRun2 : st (cP exCall) Z unit := rotate (cProcs exCall) (Z.to_nat 20000) 0 (share exRun0 (mem (sh exRun1)) 3).
Definition exRun3 : st (cP exCall3) Z unit := rotate (cProcs exCall3) (Z.to_nat 645) 0 (start (cProg exCall3) (mem (sh exRun2)) 3).

Lemma exRun0_mem : forall x, cellsOf exSlice2 x -> mem (sh exRun0) x = exMem2 x.
Proof. apply contents_cells. vm_compute. reflexivity. Qed.

Lemma exRun2_mem : forall x, cellsOf exSlice x -> mem (sh exRun2) x = exMem3 x.
Proof. apply contents_cells. vm_compute. reflexivity. Qed.

Lemma exRun2_ret : returned exRun2 tt.
Proof. apply isRet_returned. vm_compute. reflexivity. Qed.

Lemma exRun_facts : Nat.ltb 0 (length (thr exRun1)) = true /\ isRet exRun1 = false /\
  Nat.ltb 0 (length (thr exRun3)) = true /\ isRet exRun3 = false.
Proof. repeat split; vm_compute; reflexivity. Qed.

Lemma isRet_not {P T} (s : st P T unit) : isRet s = false -> ~ returned s tt.
Proof. unfold isRet, returned. intros H E. rewrite E in H. discriminate. Qed.

Lemma share_thr {P T R} (s r : st P T R) w mg : share s w mg = r -> thr s = thr r /\ main s = main r.
Proof. intros <-. split; reflexivity. Qed.

Example ex_world : exists w S s0 s1 s2, world exCalls 3 w 3 S /\
  S 0%nat = Over s0 /\ S 1%nat = Busy s1 /\ S 2%nat = Busy s2 /\
  ~ returned s1 tt /\ (1 <= length (thr s1))%nat /\ ~ returned s2 tt /\ (1 <= length (thr s2))%nat.
Proof.
  assert (W0 : world exCalls 3 bothMem 3 (fun _ => Idle)) by (constructor; lia).
  assert (W1 : world exCalls 3 bothMem 3 (turn exCalls (fun _ => Idle) 0 (Busy (start (cProg (exCalls 0)) bothMem 3)))).
  { apply (world_call exCalls 3 _ _ _ _ 0%nat W0 eq_refl); [| |apply turn_same|intros; rewrite turn_other by assumption; reflexivity].
    - change (forall x, cellsOf exSlice x -> bothMem x = exMem x). unfold cellsOf, bothMem. intros i Hi.
      destruct (Z.ltb_spec i 100); simpl in Hi; reflexivity || lia.
    - discriminate. }
  destruct (world_rotate exCalls 3 (Z.to_nat 645) 0 _ _ _ 0%nat _ (start (cProg (exCalls 0)) bothMem 3) exRun0 W1 (turn_same _ _ _ _) eq_refl eq_refl) as (s & S2 & A & B & D & F).
  assert (W2 : world exCalls 3 (mem (sh exRun0)) 3 (turn exCalls S2 1 (Busy (start (cProg (exCalls 1)) (mem (sh exRun0)) 3)))).
  { apply (world_call exCalls 3 _ _ _ _ 1%nat B); [rewrite F by discriminate; rewrite turn_other by discriminate; reflexivity| | |apply turn_same|intros; rewrite turn_other by assumption; reflexivity].
    - exact exRun0_mem.
    - intros j u x Hj X1 X2. destruct j as [|j].
      + change (cellsOf exSlice x) in X1. change (cellsOf exSlice2 x) in X2. unfold cellsOf in X1, X2. simpl in X1, X2. lia.
      + rewrite F in Hj by discriminate. rewrite turn_other in Hj by discriminate. discriminate. }
  destruct (world_rotate exCalls 3 (Z.to_nat 645) 0 _ _ _ 1%nat _ (start (cProg (exCalls 1)) (mem (sh exRun0)) 3) exRun1 W2 (turn_same _ _ _ _) eq_refl eq_refl) as (s1 & S3 & A1 & B1 & D1 & F1).
  assert (D1' : S3 0%nat = Busy s) by (rewrite F1 by discriminate; rewrite turn_other by discriminate; exact D).
  destruct (world_rotate exCalls 3 (Z.to_nat 20000) 0 _ _ _ 0%nat s (share exRun0 (mem (sh exRun1)) 3) exRun2 B1 D1') as (s2 & S4 & A2 & B2 & D2 & F2);
    [transitivity (share (share s (mem (sh exRun0)) 3) (mem (sh exRun1)) 3); [symmetry; apply share_share|apply (f_equal (fun t => share t (mem (sh exRun1)) 3) A)]|unfold exRun2; reflexivity|].
  assert (W3 : world exCalls 3 (mem (sh exRun2)) 3 (turn exCalls S4 0 (Over s2))).
  { apply (world_return exCalls 3 _ _ _ _ 0%nat s2 B2 D2); [|apply turn_same|intros; rewrite turn_other by assumption; reflexivity].
    unfold returned. rewrite (proj2 (share_thr _ _ _ _ A2)). exact exRun2_ret. }
  assert (E1 : turn exCalls S4 0 (Over s2) 1%nat = Busy s1) by (rewrite turn_other by discriminate; rewrite F2 by discriminate; exact D1).
  assert (W4 : world exCalls 3 (mem (sh exRun2)) 3 (turn exCalls (turn exCalls S4 0 (Over s2)) 2 (Busy (start (cProg (exCalls 2)) (mem (sh exRun2)) 3)))).
  { apply (world_call exCalls 3 _ _ _ _ 2%nat W3);
      [rewrite turn_other, F2, F1, turn_other, F, turn_other by discriminate; reflexivity| | |apply turn_same|intros; rewrite turn_other by assumption; reflexivity].
    - exact exRun2_mem.
    - intros j u x Hj X1 X2. destruct j as [|[|j]].
      + rewrite turn_same in Hj. discriminate.
      + change (cellsOf exSlice2 x) in X1. change (cellsOf exSlice x) in X2. unfold cellsOf in X1, X2. simpl in X1, X2. lia.
      + rewrite turn_other, F2, F1, turn_other, F, turn_other in Hj by discriminate. discriminate. }
  destruct (world_rotate exCalls 3 (Z.to_nat 645) 0 _ _ _ 2%nat _ (start (cProg (exCalls 2)) (mem (sh exRun2)) 3) exRun3 W4 (turn_same _ _ _ _) eq_refl eq_refl) as (s3 & S5 & A3 & B3 & D3 & F3).
  destruct (share_thr _ _ _ _ A1) as [T1 M1]. destruct (share_thr _ _ _ _ A3) as [T3 M3].
  destruct exRun_facts as (L1 & N1 & L3 & N3). apply Nat.ltb_lt in L1, L3.
  exists (mem (sh exRun3)), S5, s2, s1, s3. split; [exact B3|]. split; [rewrite F3, turn_other by discriminate; apply turn_same|].
  split; [rewrite F3, turn_other by discriminate; exact E1|]. split; [exact D3|].
  split; [unfold returned; rewrite M1; exact (isRet_not _ N1)|]. split; [rewrite T1; exact L1|].
  split; [unfold returned; rewrite M3; exact (isRet_not _ N3)|rewrite T3; exact L3].
Qed.
