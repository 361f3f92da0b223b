(** * Calls on collections that are already sorted *)

From Coq Require Import List ZArith Lia Bool Arith Permutation Sorted.
From Verif Require Import Lang SeqLogic ConcLogic Adequacy Base Scalar Typed SeqOps TypedShort
  ScalarFacts TypedLong TypedSort Kinds Spec KindsFacts TypedApi Lsw LswSeq LswLong LswSort Calls Guarantee
  TopFacts Many Calm CalmLong CalmSort CalmLsw CalmApi.
Import ListNotations.
Open Scope Z_scope.
Local Arguments Z.mul : simpl never.
Local Arguments Z.add : simpl never.
Local Arguments Z.sub : simpl never.
Local Arguments Z.pow : simpl never.

(** ** Specification *)

(** The mean of two indices is rounded to one of its neighbours.  (sixb.MeanI is not in /repo; the
    contract [platOk] says this of even sums only.) *)
Definition nearMean (pl : plat) : Prop :=
  forall x y, 0 <= x -> x < y -> y < intSize pl -> x + y - 1 <= 2 * mI pl x y <= x + y + 1.

(** Calls on a collection that is already as the call should leave it; for Sort, as far as its
    comparison can tell. *)
Inductive sortedCall (pl : plat) (tn : tuning) : forall T, call T -> Prop :=
| calm_typed e opt s m0 :
    typedSlice pl e m0 s -> sortable e opt (contents m0 s) -> inOrder e opt (contents m0 s) ->
    sortedCall pl tn (elem e) (typedCall pl tn opt e s m0)
| calm_lsw T lt lq cap n m0 :
    consistent lt lq -> 0 <= n <= cap -> 11 * n + 18 < 10 * intSize pl ->
    noSmallerAfter lt (contents m0 (Slice 0 n)) ->
    sortedCall pl tn T (lswCallBy pl tn lt lq cap n m0).
Arguments sortedCall pl tn {T} C.

(** Any number of calls in one memory, beginning and ending at any time, as in [world]; but a call may
    begin while others are busy with some of the same cells if all of these are among the calls
    [ro]. *)
Inductive crowd {T} (C : nat -> call T) (ro : nat -> Prop) (M : Z)
  : (Z -> T) -> Z -> (forall i, phase (cP (C i)) T) -> Prop :=
| crowd_start w mg : 0 <= mg <= M -> crowd C ro M w mg (fun _ => Idle)
| crowd_call w mg S S' i : crowd C ro M w mg S -> S i = Idle ->
    (forall x, cCells (C i) x -> w x = cInit (C i) x) ->
    (forall j s x, S j = Busy s -> cCells (C j) x -> cCells (C i) x -> ro i /\ ro j) ->
    S' i = Busy (start (cProg (C i)) w mg) -> (forall j, j <> i -> S' j = S j) -> crowd C ro M w mg S'
| crowd_busy w mg S S' i s s' : crowd C ro M w mg S -> S i = Busy s ->
    pstep (cProcs (C i)) (share s w mg) s' ->
    S' i = Busy s' -> (forall j, j <> i -> S' j = S j) -> crowd C ro M (mem (sh s')) mg S'
| crowd_return w mg S S' i s : crowd C ro M w mg S -> S i = Busy s -> returned s tt ->
    S' i = Over s -> (forall j, j <> i -> S' j = S j) -> crowd C ro M w mg S'
| crowd_over w mg S S' i s s' : crowd C ro M w mg S -> S i = Over s ->
    pstep (cProcs (C i)) (share s w mg) s' ->
    S' i = Over s' -> (forall j, j <> i -> S' j = S j) -> crowd C ro M (mem (sh s')) mg S'
| crowd_env w mg S w' mg' : crowd C ro M w mg S -> 0 <= mg' <= M ->
    (forall j s x, S j = Busy s -> cCells (C j) x -> w' x = w x) -> crowd C ro M w' mg' S.

(** ** Proofs *)

Lemma sorted_sort pl tn T (C : call T) : sortedCall pl tn C -> sortCall pl tn C.
Proof. intros []; constructor; assumption. Qed.

Lemma near_of pl : platOk pl -> nearMean pl -> meanNear (Wd := pword pl) (mI pl).
Proof. intros (H0 & _) H x y Hx Hxy Hy. assert (HI := intSize_wq pl H0). apply H; lia. Qed.

Definition stillGrain {T} (tn : tuning) (C : call T) : grain :=
  Grain (Z.to_nat (if cFC C then maxLenRecFC tn else maxLenRec tn)) true.

Definition stillBy {T} (tn : tuning) (C : call T) (N : Z) : Prop :=
  wp (Gr := stillGrain tn C) (cProcs C) (wpT (Gr := stillGrain tn C) (cProcs C) (Z.to_nat (Z.log2 (cLen C) + 2))) (Z.to_nat (Z.log2 (cLen C) + 2))
     (QM (fun (_ : unit) (_ : Z -> T) => True)) (Z.to_nat N) (cProg C)
     (Gst (cCells C) (cCells C) (cInit C) MInit 0).

Lemma still_grain pl tn opt e s m0 :
  calmGrain (Wd := pword pl) (kindOf pl e) tn = stillGrain tn (typedCall pl tn opt e s m0).
Proof. destruct e; reflexivity. Qed.

Lemma typed_still pl tn opt e s m0 bal : platOk pl -> nearMean pl -> tuningOk pl tn -> typedSlice pl e m0 s ->
  sortable e opt (contents m0 s) -> inOrder e opt (contents m0 s) ->
  (bal = true -> (if cFC (typedCall pl tn opt e s m0) then maxLenRecFC tn else maxLenRec tn) < 2 ^ 32) ->
  stillBy tn (typedCall pl tn opt e s m0) (calmSteps bal (len s)).
Proof.
  intros Hpl Hn Htn Hty Hso Hin Hbal. unfold stillBy. rewrite <- (still_grain pl tn opt e s m0).
  unfold typedCall. cbn [cP cProcs cProg cCells cInit cLen cGoal].
  apply wp_sortProg_calm; auto using near_of.
  intro E. specialize (Hbal E). unfold maxRec. destruct e; exact Hbal.
Qed.

Lemma lsw_still pl tn T lt lq cap n (m0 : Z -> T) : platOk pl -> nearMean pl -> tuningOk pl tn ->
  consistent lt lq -> 0 <= n <= cap -> 11 * n + 18 < 10 * intSize pl ->
  noSmallerAfter lt (contents m0 (Slice 0 n)) ->
  stillBy tn (lswCallBy pl tn lt lq cap n m0) (calmSteps true n).
Proof.
  intros Hpl Hn Htn Hlt Hnc Hb Hs. assert (T1 := tuning_ins (lkind lq) tn Htn). assert (T2 := tuning_rec (lkind lq) tn Htn). assert (T3 := tuning_rec2 (lkind lq) tn Htn).
  unfold stillBy, lswCallBy. cbn [cP cProcs cProg cCells cInit cLen cGoal].
  assert (H := wp_lswSort_calm lt (proj1 Hlt) cap tn (mI pl) (meanOk_of pl Hpl) (meanEven_of pl Hpl) (near_of pl Hpl Hn) T1 T2
    (Z.to_nat (Z.log2 n + 2)) T3 (reg (Slice 0 n)) n m0 0 MInit (fun i Hi => Hi)).
  assert (C0 := cCalm_pos true n ltac:(lia)).
  eapply wp_more; [apply H; [lia|lia|assert (HI := intSize_wq pl (proj1 Hpl)); lia| |left; reflexivity|lia]|lia|unfold calmSteps; lia|].
  - intros i j Hi Hij Hj. unfold noSmallerAfter in Hs. rewrite contents_seg in Hs.
    exact (sorted_ascending _ _ _ _ Hs i j ltac:(cbn [off]; lia) Hij ltac:(cbn [off len]; lia)).
  - intros [] k g _ HQ. exact HQ.
Qed.

Lemma call_still pl tn T (C : call T) : platOk pl -> nearMean pl -> tuningOk pl tn -> sortedCall pl tn C ->
  exists N, stillBy tn C N.
Proof.
  intros Hpl Hn Htn HC. destruct HC as [e opt s m0 H1 H2 H3|T lt lq cap n m0 H1 H2 H3 H4].
  - exists (calmSteps false (len s)). apply typed_still; auto. discriminate.
  - exists (calmSteps true n). apply lsw_still; auto.
Qed.

Lemma call_still_log pl tn T (C : call T) : platOk pl -> nearMean pl -> tuningOk pl tn -> sortedCall pl tn C ->
  (if cFC C then maxLenRecFC tn else maxLenRec tn) < 2 ^ 32 -> stillBy tn C (calmSteps true (cLen C)).
Proof.
  intros Hpl Hn Htn HC Hr. destruct HC as [e opt s m0 H1 H2 H3|T lt lq cap n m0 H1 H2 H3 H4].
  - apply typed_still; auto.
  - apply lsw_still; auto.
Qed.

(** Nothing is written. *)
Theorem sorted_untouched pl tn T (C : call T) M k s : platOk pl -> nearMean pl -> tuningOk pl tn ->
  sortedCall pl tn C -> reach C M k s ->
  (forall x, ~ In (Some (x, true)) (accesses s)) /\ forall i, cCells C i -> mem (sh s) i = cInit C i.
Proof.
  intros Hpl Hn Htn HC (mg0 & Hmg & He). destruct (call_still pl tn T C Hpl Hn Htn HC) as [N HW].
  assert (Hfin := call_finite pl tn T C Hpl (sorted_sort pl tn T C HC)). split.
  - intro x. exact (ad_frozen (Gr := stillGrain tn C) _ _ _ M (cCells C) _ Hfin _ _ _ mg0 MInit Hmg (or_intror eq_refl) HW k s x eq_refl He).
  - exact (ad_kept (Gr := stillGrain tn C) _ _ _ M (cCells C) _ Hfin _ _ _ mg0 MInit Hmg (or_intror eq_refl) HW k s eq_refl He).
Qed.

(** ... and it does not take long. *)
Theorem sorted_steps pl tn T (C : call T) M k s : platOk pl -> nearMean pl -> tuningOk pl tn ->
  sortedCall pl tn C -> (if cFC C then maxLenRecFC tn else maxLenRec tn) < 2 ^ 32 -> reach C M k s ->
  Z.of_nat k <= 500 * cLen C * (Z.log2 (cLen C) + 1) + 6 * cLen C + 20.
Proof.
  intros Hpl Hn Htn HC Hr (mg0 & Hmg & He). assert (HW := call_still_log pl tn T C Hpl Hn Htn HC Hr).
  assert (Hfin := call_finite pl tn T C Hpl (sorted_sort pl tn T C HC)).
  assert (H := ad_steps (Gr := stillGrain tn C) _ _ _ M (cCells C) _ Hfin _ _ _ mg0 MInit Hmg (or_intror eq_refl) HW k s He).
  assert (L := call_len pl tn T C Hpl (sorted_sort pl tn T C HC)). assert (L0 := Z.log2_nonneg (cLen C)).
  unfold calmSteps, cCalm, cLog in H. assert (0 <= 500 * cLen C * (Z.log2 (cLen C) + 1)) by nia. lia.
Qed.

Lemma cells_dec pl tn T (C : call T) x : sortCall pl tn C -> cCells C x \/ ~ cCells C x.
Proof. intros []; cbn [typedCall lswCallBy cCells]; unfold cellsOf; cbn [off len]; lia. Qed.

(** No step of such a call changes the memory. *)
Lemma sorted_step pl tn T (C : call T) M k s s' : platOk pl -> nearMean pl -> tuningOk pl tn ->
  sortedCall pl tn C -> reach C M k s -> pstep (cProcs C) s s' -> forall x, mem (sh s') x = mem (sh s) x.
Proof.
  intros Hpl Hn Htn HC R Hs x.
  assert (Fr := g_frame pl tn Hpl Htn C (sorted_sort pl tn T C HC) M k s R s' Hs x).
  assert (K1 := proj2 (sorted_untouched pl tn T C M k s Hpl Hn Htn HC R)).
  assert (R' : reach C M (S k) s') by (destruct R as (g & Hg & R); exists g; split; [exact Hg|]; eapply exec_prog; eauto).
  assert (K2 := proj2 (sorted_untouched pl tn T C M (S k) s' Hpl Hn Htn HC R')).
  destruct (cells_dec pl tn T C x (sorted_sort pl tn T C HC)) as [D|D]; [rewrite K1, K2 by exact D; reflexivity|exact (Fr D)].
Qed.

Section Crowd.
Variables (pl : plat) (tn : tuning).
Hypothesis Hpl : platOk pl.
Hypothesis Hnear : nearMean pl.
Hypothesis Htn : tuningOk pl tn.
Context {T : Type}.
Variable C : nat -> call T.
Variable ro : nat -> Prop.
Hypothesis HC : forall i, sortCall pl tn (C i).
Hypothesis Hro : forall i, ro i -> sortedCall pl tn (C i).
Variable M : Z.

Definition orderly2 (w : Z -> T) (mg : Z) (S : forall i, phase (cP (C i)) T) : Prop :=
  0 <= mg <= M /\
  (forall i s, S i = Busy s -> exists k, reach (C i) M k (share s w mg)) /\
  (forall i s, S i = Over s -> returned s tt /\ forall c, In c (thr s) -> exiting c) /\
  (forall i j s s' x, S i = Busy s -> S j = Busy s' -> i <> j -> cCells (C i) x -> cCells (C j) x -> ro i /\ ro j).

Theorem crowd_orderly w mg S : crowd C ro M w mg S -> orderly2 w mg S.
Proof.
  induction 1 as [w mg Hm|w mg S S' i _ IH Hi Hw Hd E En|w mg S S' i s s' _ IH Hi Hs E En|w mg S S' i s _ IH Hi Hr E En
                 |w mg S S' i s s' _ IH Hi Hs E En|w mg S w' mg' _ IH Hm Hw].
  - split; [exact Hm|]. split; [|split]; intros; discriminate.
  - destruct IH as (Hm & HB & HO & HD). split; [exact Hm|]. split; [|split].
    + intros j s Hj. destruct (Nat.eq_dec j i) as [->|Ne]; [|apply HB; rewrite <- (En j Ne); exact Hj].
      rewrite E in Hj. injection Hj as <-. exists O, mg. split; [exact Hm|].
      apply (env_share (cProcs (C i)) M (cCells (C i)) 0 _ (start (cProg (C i)) (cInit (C i)) mg) w mg); [constructor|exact Hm|exact Hw].
    + intros j s Hj. destruct (Nat.eq_dec j i) as [->|Ne]; [rewrite E in Hj; discriminate|].
      apply (HO j). rewrite <- (En j Ne); exact Hj.
    + intros j1 j2 s1 s2 x H1 H2 Ne X1 X2.
      destruct (Nat.eq_dec j1 i) as [->|N1]; destruct (Nat.eq_dec j2 i) as [->|N2].
      * destruct (Ne eq_refl).
      * rewrite (En j2 N2) in H2. exact (Hd j2 s2 x H2 X2 X1).
      * rewrite (En j1 N1) in H1. destruct (Hd j1 s1 x H1 X1 X2). auto.
      * rewrite (En j1 N1) in H1. rewrite (En j2 N2) in H2. exact (HD j1 j2 s1 s2 x H1 H2 Ne X1 X2).
  - destruct IH as (Hm & HB & HO & HD). destruct (HB i s Hi) as [k R].
    assert (Fr := g_frame pl tn Hpl Htn (C i) (HC i) M k _ R s' Hs). cbn [share sh mem] in Fr.
    assert (Eg : maxg (sh s') = mg) by (rewrite (pstep_maxg _ _ _ Hs); reflexivity).
    assert (HD' : forall i0 j s0 s'0 x, S' i0 = Busy s0 -> S' j = Busy s'0 -> i0 <> j ->
                    cCells (C i0) x -> cCells (C j) x -> ro i0 /\ ro j).
    { intros j1 j2 s1 s2 x H1 H2 Ne X1 X2.
      assert (B1 : exists u, S j1 = Busy u) by (destruct (Nat.eq_dec j1 i) as [->|N1]; [eauto|rewrite (En j1 N1) in H1; eauto]).
      assert (B2 : exists u, S j2 = Busy u) by (destruct (Nat.eq_dec j2 i) as [->|N2]; [eauto|rewrite (En j2 N2) in H2; eauto]).
      destruct B1 as [u1 B1], B2 as [u2 B2]. exact (HD j1 j2 u1 u2 x B1 B2 Ne X1 X2). }
    split; [exact Hm|]. split; [|split; [|exact HD']].
    + intros j u Hj. destruct (Nat.eq_dec j i) as [->|Ne].
      * rewrite E in Hj. injection Hj as <-. rewrite <- Eg, share_self. destruct R as (g0 & Hg0 & R).
        exists (Datatypes.S k), g0. split; [exact Hg0|]. eapply exec_prog; eauto.
      * rewrite (En j Ne) in Hj. destruct (HB j u Hj) as [k' R']. exists k'.
        eapply reach_env; [exact R'|exact Hm|]. intros x Hx.
        destruct (cells_dec pl tn T (C i) x (HC i)) as [Dx|Dx]; [|exact (Fr x Dx)].
        destruct (HD i j s u x Hi Hj (not_eq_sym Ne) Dx Hx) as [Ri _].
        exact (sorted_step pl tn T (C i) M k _ s' Hpl Hnear Htn (Hro i Ri) R Hs x).
    + intros j u Hj. destruct (Nat.eq_dec j i) as [->|Ne]; [rewrite E in Hj; discriminate|].
      apply (HO j). rewrite <- (En j Ne); exact Hj.
  - destruct IH as (Hm & HB & HO & HD). split; [exact Hm|]. split; [|split].
    + intros j u Hj. destruct (Nat.eq_dec j i) as [->|Ne]; [rewrite E in Hj; discriminate|].
      apply (HB j). rewrite <- (En j Ne); exact Hj.
    + intros j u Hj. destruct (Nat.eq_dec j i) as [->|Ne].
      * rewrite E in Hj. injection Hj as <-. split; [exact Hr|]. destruct (HB i s Hi) as [k R].
        exact (proj2 (g_goal pl tn Hpl Htn (C i) (HC i) M k _ R tt Hr)).
      * apply (HO j). rewrite <- (En j Ne); exact Hj.
    + intros j1 j2 s1 s2 x H1 H2 Ne.
      destruct (Nat.eq_dec j1 i) as [->|N1]; [rewrite E in H1; discriminate|].
      destruct (Nat.eq_dec j2 i) as [->|N2]; [rewrite E in H2; discriminate|].
      rewrite (En j1 N1) in H1. rewrite (En j2 N2) in H2. exact (HD j1 j2 s1 s2 x H1 H2 Ne).
  - destruct IH as (Hm & HB & HO & HD). destruct (HO i s Hi) as [Hr Ht].
    destruct (over_step C M i s w mg s' Hr Ht Hs) as (A & B & D).
    split; [exact Hm|]. split; [|split].
    + intros j u Hj. destruct (Nat.eq_dec j i) as [->|Ne]; [rewrite E in Hj; discriminate|].
      rewrite (En j Ne) in Hj. destruct (HB j u Hj) as [k' R']. exists k'. eapply reach_env; [exact R'|exact Hm|auto].
    + intros j u Hj. destruct (Nat.eq_dec j i) as [->|Ne].
      * rewrite E in Hj. injection Hj as <-. auto.
      * apply (HO j). rewrite <- (En j Ne); exact Hj.
    + intros j1 j2 s1 s2 x H1 H2 Ne.
      destruct (Nat.eq_dec j1 i) as [->|N1]; [rewrite E in H1; discriminate|].
      destruct (Nat.eq_dec j2 i) as [->|N2]; [rewrite E in H2; discriminate|].
      rewrite (En j1 N1) in H1. rewrite (En j2 N2) in H2. exact (HD j1 j2 s1 s2 x H1 H2 Ne).
  - destruct IH as (_ & HB & HO & HD). split; [exact Hm|]. split; [|split; [exact HO|exact HD]].
    intros j u Hj. destruct (HB j u Hj) as [k R]. exists k. eapply reach_env; [exact R|exact Hm|].
    intros x Hx. exact (Hw j u x Hj Hx).
Qed.

(** Calls on sorted collections may overlap: each behaves as if it were alone, and whatever two calls
    are about to do to the same cell, both only read it. *)
Theorem crowd_calls w mg S : crowd C ro M w mg S ->
  (forall i s, S i = Busy s ->
     (exists k, reach (C i) M k (share s w mg)) /\ ~ panicked s /\ ~ race s /\
     (returned s tt -> cGoal (C i) w) /\
     (returned s tt \/ exists s', pstep (cProcs (C i)) (share s w mg) s')) /\
  (forall i j s s' x b b', S i = Busy s -> S j = Busy s' -> i <> j ->
     In (Some (x, b)) (accesses s) -> In (Some (x, b')) (accesses s') -> b = false /\ b' = false).
Proof.
  intro H. destruct (crowd_orderly w mg S H) as (Hm & HB & HO & HD). split.
  - intros i s Hi. destruct (HB i s Hi) as [k R]. split; [exists k; exact R|].
    split; [exact (g_no_panic pl tn Hpl Htn (C i) (HC i) M k _ R)|].
    split; [exact (g_no_race pl tn Hpl Htn (C i) (HC i) M k _ R)|].
    split; [intro Hr; exact (proj1 (g_goal pl tn Hpl Htn (C i) (HC i) M k _ R tt Hr))|].
    destruct (g_progress pl tn Hpl Htn (C i) (HC i) M k _ R) as [[[] Hr]|Hp]; auto.
  - intros i j s s' x b b' Hi Hj Ne A1 A2.
    destruct (HB i s Hi) as [k R]. destruct (HB j s' Hj) as [k' R'].
    destruct (HD i j s s' x Hi Hj Ne) as [Ri Rj].
    + exact (g_in_bounds pl tn Hpl Htn (C i) (HC i) M k _ R x b A1).
    + exact (g_in_bounds pl tn Hpl Htn (C j) (HC j) M k' _ R' x b' A2).
    + split; [destruct b|destruct b']; try reflexivity; exfalso.
      * exact (proj1 (sorted_untouched pl tn T (C i) M k _ Hpl Hnear Htn (Hro i Ri) R) x A1).
      * exact (proj1 (sorted_untouched pl tn T (C j) M k' _ Hpl Hnear Htn (Hro j Rj) R') x A2).
Qed.

End Crowd.

(** Sorting a second time: the collection is sorted already. *)
Theorem again_typed pl tn opt e s m0 M k st : platOk pl -> tuningOk pl tn ->
  typedSlice pl e m0 s -> sortable e opt (contents m0 s) ->
  reach (typedCall pl tn opt e s m0) M k st -> returned st tt ->
  sortedCall pl tn (typedCall pl tn opt e s (mem (sh st))).
Proof.
  intros Hpl Htn [Hg Hty] Hso R Hr.
  destruct (proj1 (g_goal pl tn Hpl Htn _ (call_typed pl tn e opt s m0 (conj Hg Hty) Hso) M k st R tt Hr)) as [HP HI].
  constructor.
  - split; [exact Hg|]. eapply Permutation_Forall; [apply Permutation_sym; exact HP|exact Hty].
  - destruct Hso as [H|[H|H]]; [left; exact H|right; left; exact H|right; right].
    eapply Permutation_Forall; [apply Permutation_sym; exact HP|exact H].
  - exact HI.
Qed.

Theorem again_lsw pl tn T lt cap n (m0 : Z -> T) M k st : platOk pl -> tuningOk pl tn ->
  weakOrder lt -> 0 <= n <= cap -> 11 * n + 18 < 10 * intSize pl ->
  reach (lswCall pl tn lt cap n m0) M k st -> returned st tt ->
  sortedCall pl tn (lswCall pl tn lt cap n (mem (sh st))).
Proof.
  intros Hpl Htn Hlt Hn Hb R Hr.
  destruct (proj1 (g_goal pl tn Hpl Htn _ (call_lsw pl tn T lt cap n m0 Hlt Hn Hb) M k st R tt Hr)) as [HP HI].
  apply calm_lsw; auto using consistent_self.
Qed.
