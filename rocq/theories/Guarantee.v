(** * From the logic to reachable states of API calls *)

From Coq Require Import List ZArith Lia Bool Permutation Sorted.
From Verif Require Import Lang SeqLogic ConcLogic Adequacy Base Scalar Typed SeqOps TypedShort
  ScalarFacts TypedLong TypedSort Kinds Spec KindsFacts TypedApi Lsw LswSeq LswLong LswSort Calls.
Import ListNotations.
Open Scope Z_scope.
Local Arguments Z.mul : simpl never.
Local Arguments Z.add : simpl never.
Local Arguments Z.sub : simpl never.
Local Arguments Z.pow : simpl never.

(** Finitely many cells. *)
Lemma slice_finite pl o n : platOk pl -> 0 <= n < intSize pl ->
  exists l, (forall i, o <= i < o + n -> In i l) /\ Z.of_nat (length l) < two64.
Proof.
  intros Hpl H. assert (HI := intSize_max pl Hpl). exists (map (fun k => o + Z.of_nat k) (seq 0 (Z.to_nat n))). split.
  - intros i Hi. apply in_map_iff. exists (Z.to_nat (i - o)). split; [lia|]. apply in_seq. lia.
  - rewrite map_length, seq_length. unfold two64. lia.
Qed.

(** The logic's statement about one call. *)
Definition callGrain {T} (tn : tuning) (C : call T) : grain :=
  Grain (Z.to_nat (if cFC C then maxLenRecFC tn else maxLenRec tn)) false.

Definition certified {T} (tn : tuning) (C : call T) (md0 : mode T) : Prop :=
  wp (Gr := callGrain tn C) (cProcs C) (wpT (Gr := callGrain tn C) (cProcs C) (Z.to_nat (Z.log2 (cLen C) + 2))) (Z.to_nat (Z.log2 (cLen C) + 2))
     (QM (fun (_ : unit) w => cGoal C w)) (Z.to_nat (sortSteps (cLen C))) (cProg C)
     (Gst (cCells C) (cCells C) (cInit C) md0 0).

(** The same with the result pinned down: [Out r] is what the collection ends up as if the caller
    made [r] rounds with a partner. *)
Definition exactly {T} (tn : tuning) (C : call T) (Out : nat -> (Z -> T) -> Prop) (md0 : mode T) : Prop :=
  wp (Gr := callGrain tn C) (cProcs C) (wpT (Gr := callGrain tn C) (cProcs C) (Z.to_nat (Z.log2 (cLen C) + 2))) (Z.to_nat (Z.log2 (cLen C) + 2))
     (QM (fun (_ : unit) w => cGoal C w /\ exists r, Z.of_nat r <= Z.max 0 (cLen C - (recLimit tn C - 1)) /\ Out r w))
     (Z.to_nat (sortSteps (cLen C))) (cProg C)
     (Gst (cCells C) (cCells C) (cInit C) md0 0).

Lemma exactly_certified {T} tn (C : call T) Out md0 : exactly tn C Out md0 -> certified tn C md0.
Proof.
  intro H. unfold certified. eapply wp_more; [exact H|apply Nat.le_refl|apply Nat.le_refl|].
  intros [] k g _. unfold QM. destruct (md g); try tauto; intros HQ w Hw; apply HQ; exact Hw.
Qed.

(** One result for each number of rounds. *)
Definition oneEach {T} (C : call T) (Out : nat -> (Z -> T) -> Prop) : Prop :=
  forall r w w', Out r w -> Out r w' -> forall i, cCells C i -> w' i = w i.

Definition finite {T} (C : call T) : Prop :=
  exists l, (forall i, cCells C i -> In i l) /\ Z.of_nat (length l) < two64.

Lemma typed_grain pl tn opt e s m0 :
  typedGrain (Wd := pword pl) (kindOf pl e) tn = callGrain tn (typedCall pl tn opt e s m0).
Proof. destruct e; reflexivity. Qed.

Lemma typed_exactly pl tn opt e s m0 md0 : platOk pl -> tuningOk pl tn -> typedSlice pl e m0 s ->
  sortable e opt (contents m0 s) ->
  let C := typedCall pl tn opt e s m0 in
  (md0 = MInit \/ (md0 = MSeq /\ cLen C < recLimit tn C)) -> exactly tn C (progOut pl tn e opt s m0) md0.
Proof.
  intros Hpl Htn Hty Hso C Hmd. unfold exactly.
  assert (HW := wp_sortProg pl Hpl tn Htn e opt s m0 0 md0 (Z.to_nat (Z.log2 (len s) + 2)) Hty Hso).
  rewrite (typed_grain pl tn opt e s m0) in HW.
  assert (E : recLimit tn C - 1 = 2 * maxRec (kindOf pl e) tn + 1) by (unfold recLimit, maxRec, C; destruct e; cbn; lia).
  rewrite E. apply HW; [|apply Nat.le_refl].
  destruct Hmd as [H|[H1 H2]]; [left; exact H|right; split; [exact H1|]]. unfold C in H2. cbn [typedCall cLen] in H2. fold C in H2. lia.
Qed.

Lemma meanEven_of pl : platOk pl -> meanEven (mI pl).
Proof.
  intros (H0 & _ & _ & _ & _ & _ & _ & H) x y Hx Hxy Hy. assert (HI := intSize_wq pl H0). apply H; lia.
Qed.

Lemma lsw_exactly pl tn T lt lq cap n (m0 : Z -> T) md0 : platOk pl -> tuningOk pl tn ->
  consistent lt lq -> 0 <= n <= cap -> 11 * n + 18 < 10 * intSize pl ->
  let C := lswCallBy pl tn lt lq cap n m0 in
  (md0 = MInit \/ (md0 = MSeq /\ cLen C < recLimit tn C)) ->
  exactly tn C (fun r w => lmainOut (Wd := pword pl) lt cap tn (mI pl) r 0 (n - 1) m0 w) md0.
Proof.
  intros Hpl Htn Hlt Hn Hb C Hmd. assert (T1 := tuning_ins (lkind lq) tn Htn). assert (T2 := tuning_rec (lkind lq) tn Htn). assert (T3 := tuning_rec2 (lkind lq) tn Htn).
  assert (E : recLimit tn C - 1 = 2 * maxLenRecFC tn + 1) by (unfold recLimit, C; cbn [lswCallBy cFC]; lia).
  unfold exactly. rewrite E. unfold C, lswCallBy. cbn [cP cProcs cProg cCells cInit cLen cGoal].
  assert (H := wp_lswSort lt lq Hlt cap tn (mI pl) (meanOk_of pl Hpl) (meanEven_of pl Hpl) T1 T2 T3
    (Z.to_nat (Z.log2 n + 2)) (reg (Slice 0 n)) n m0 0 md0 (fun i Hi => Hi)).
  eapply wp_more; [apply H; [lia|lia|assert (HI := intSize_wq pl (proj1 Hpl)); lia|exact Hmd|lia]|lia|unfold sortSteps, cSort; nia|].
  intros [] k g _ HQ. revert HQ. unfold QM.
  assert (G : forall w, lsortedE lt lq cap tn (mI pl) (reg (Slice 0 n)) n m0 w ->
    (Permutation (contents w (Slice 0 n)) (contents m0 (Slice 0 n)) /\ noSmallerAfter lq (contents w (Slice 0 n))) /\
    exists r, Z.of_nat r <= Z.max 0 (n - (2 * maxLenRecFC tn + 1)) /\ lmainOut lt cap tn (mI pl) r 0 (n - 1) m0 w).
  2:{ destruct (md g); auto. }
  intros w [[[HP HA] _] Hr]. split; [split|exact Hr].
  - rewrite !contents_seg. exact HP.
  - unfold noSmallerAfter. rewrite contents_seg. apply ascending_sorted. exact HA.
Qed.

Lemma call_exactly pl tn T (C : call T) : platOk pl -> tuningOk pl tn -> sortCall pl tn C ->
  exists Out, oneEach C Out /\
    forall md0, (md0 = MInit \/ (md0 = MSeq /\ cLen C < recLimit tn C)) -> exactly tn C Out md0.
Proof.
  intros Hpl Htn HC. destruct HC.
  - exists (progOut pl tn e opt s m0). split; [|intros; apply typed_exactly; auto].
    intros r w w' H1 H2 i Hi. exact (progOut_fun _ _ _ _ _ _ _ _ _ H1 H2 i Hi).
  - eexists. split; [|intros; apply lsw_exactly; auto].
    intros r w w' H2 H3 i Hi. refine (lmainOut_fun _ _ _ _ _ _ _ _ _ _ H2 H3 i _).
    revert Hi. cbn [lswCallBy cCells]. unfold cellsOf, reg, rng. cbn [off len]. lia.
Qed.

Lemma call_certified pl tn T (C : call T) md0 : platOk pl -> tuningOk pl tn -> sortCall pl tn C ->
  (md0 = MInit \/ (md0 = MSeq /\ cLen C < recLimit tn C)) -> certified tn C md0.
Proof.
  intros Hpl Htn HC Hmd. destruct (call_exactly pl tn T C Hpl Htn HC) as (Out & _ & H).
  exact (exactly_certified tn C Out md0 (H md0 Hmd)).
Qed.

Lemma rec_nonneg pl tn (b : bool) : tuningOk pl tn -> 0 <= (if b then maxLenRecFC tn else maxLenRec tn).
Proof.
  intros (H1 & H2 & H3 & H4 & H5). destruct b; lia.
Qed.

Lemma slice_elems o n : 0 <= n -> exists l, (forall i, o <= i < o + n -> In i l) /\ Z.of_nat (length l) = n.
Proof.
  intro H. exists (map (fun k => o + Z.of_nat k) (seq 0 (Z.to_nat n))). split.
  - intros i Hi. apply in_map_iff. exists (Z.to_nat (i - o)). split; [lia|]. apply in_seq. lia.
  - rewrite map_length, seq_length. lia.
Qed.

Lemma call_elems pl tn T (C : call T) : platOk pl -> sortCall pl tn C ->
  exists l, (forall i, cCells C i -> In i l) /\ Z.of_nat (length l) = cLen C.
Proof.
  intros Hpl HC. destruct HC.
  - cbn [typedCall cCells cLen]. unfold cellsOf. apply slice_elems. apply H.
  - cbn [lswCallBy cCells cLen]. unfold cellsOf. apply slice_elems. simpl. lia.
Qed.

Lemma call_finite pl tn T (C : call T) : platOk pl -> sortCall pl tn C -> finite C.
Proof.
  intros Hpl HC. assert (HI := intSize_max pl Hpl). destruct HC.
  - unfold finite, typedCall. cbn [cCells]. unfold cellsOf. apply (slice_finite pl _ _ Hpl). apply H.
  - unfold finite, lswCallBy. cbn [cCells]. unfold cellsOf. apply (slice_finite pl _ _ Hpl). simpl. lia.
Qed.

Lemma call_len pl tn T (C : call T) : platOk pl -> sortCall pl tn C -> 0 <= cLen C < intSize pl.
Proof.
  intros Hpl HC. assert (HI := intSize_max pl Hpl). destruct HC.
  - apply H.
  - cbn [lswCallBy cLen]. lia.
Qed.

(** ** After the return *)

Lemma exiting_step {P T} (body : P -> cmd P T unit) (c : cmd P T unit) s c' s' fs :
  exiting c -> exec_local body c s = Some (c', s', fs) -> exiting c' /\ s' = s /\ fs = [].
Proof.
  intros He Hx. unfold exec_local in Hx. destruct He as [c a Hv|c c1 Hv He]; rewrite Hv in Hx; [discriminate|].
  inversion Hx; subst. auto.
Qed.

Lemma exiting_view {P T A} (c : cmd P T A) : exiting c -> (exists a, view c = HRet a) \/ (exists c', view c = HTau c').
Proof. intros []; eauto. Qed.

Lemma after_return {P T R} (body : P -> cmd P T unit) M (Rg : Z -> Prop) j (s s' : st P T R) r :
  exec body M Rg j s s' -> returned s r -> (forall c, In c (thr s) -> exiting c) ->
  returned s' r /\ (forall c, In c (thr s') -> exiting c) /\ forall i, Rg i -> mem (sh s') i = mem (sh s) i.
Proof.
  intros H Hr Ht. induction H as [s|n s s1 s2 H IH Hs|n s s1 s2 H IH Hs].
  - auto.
  - destruct (IH Hr Ht) as (Hr1 & Ht1 & Hm1). clear IH. unfold returned in *.
    destruct Hs as [s1 s2 Hs|m ts s0 k0 z Hz|m l1 c l2 s0 k0 z Hz]; cbn [main thr sh] in *; [|congruence|];
      [|assert (He := Ht1 c ltac:(apply in_or_app; right; left; reflexivity));
        destruct (exiting_view _ He) as [[a E]|[c' E]]; congruence].
    destruct Hs; cbn [main thr sh] in *; try congruence.
    + unfold exec_local in H0. rewrite Hr1 in H0. discriminate.
    + assert (He := Ht1 c ltac:(apply in_or_app; right; left; reflexivity)).
      destruct (exiting_step body _ _ _ _ _ He H0) as (He' & -> & ->).
      split; [exact Hr1|]. split; [|exact Hm1]. intros c0 Hc. apply in_app_or in Hc.
      destruct Hc as [Hc|[<-|Hc]]; [apply Ht1; apply in_or_app; auto|exact He'|].
      rewrite app_nil_r in Hc. apply Ht1. apply in_or_app. right; right; exact Hc.
    + assert (He := Ht1 c1 ltac:(apply in_or_app; right; left; reflexivity)).
      destruct (exiting_view _ He) as [[a E]|[c' E]]; congruence.
    + assert (He := Ht1 c1 ltac:(apply in_or_app; right; left; reflexivity)).
      destruct (exiting_view _ He) as [[a E]|[c' E]]; congruence.
  - destruct (IH Hr Ht) as (Hr1 & Ht1 & Hm1). clear IH. destruct Hs; cbn [main thr sh mem] in *.
    split; [exact Hr1|]. split; [exact Ht1|]. intros i Hi. rewrite H1 by exact Hi. auto.
Qed.

(** ** The guarantees, per call *)

Section G.
Variables (pl : plat) (tn : tuning).
Hypothesis Hpl : platOk pl.
Hypothesis Htn : tuningOk pl tn.
Context {T : Type} (C : call T).
Hypothesis HC : sortCall pl tn C.
Variables (M : Z) (k : nat) (s : st (cP C) T unit).
Hypothesis Hr : reach C M k s.

Let HWI : certified tn C MInit := call_certified pl tn T C MInit Hpl Htn HC (or_introl eq_refl).
Let Hfin : finite C := call_finite pl tn T C Hpl HC.

Lemma g_goal r : returned s r -> cGoal C (mem (sh s)) /\ forall c, In c (thr s) -> exiting c.
Proof.
  destruct Hr as (mg0 & Hmg & He). intro Hret.
  exact (ad_return _ _ _ M (cCells C) _ Hfin _ _ _ mg0 MInit Hmg (or_intror eq_refl) HWI _ k s r (fun _ _ _ h => h) He Hret).
Qed.

Lemma g_after r : returned s r -> forall j s', exec (cProcs C) M (cCells C) j s s' ->
  returned s' r /\ (forall c, In c (thr s') -> exiting c) /\
  forall i, cCells C i -> mem (sh s') i = mem (sh s) i.
Proof. intros Hret j s' He. destruct (g_goal r Hret) as [_ Ht]. eapply after_return; eauto. Qed.

Lemma g_steps : Z.of_nat k <= 100 * cLen C * cLen C + 6 * cLen C + 20.
Proof.
  destruct Hr as (mg0 & Hmg & He).
  assert (H := ad_steps _ _ _ M (cCells C) _ Hfin _ _ _ mg0 MInit Hmg (or_intror eq_refl) HWI k s He).
  assert (L := call_len pl tn T C Hpl HC). unfold sortSteps in H.
  assert (0 <= 100 * cLen C * cLen C + 6 * cLen C + 20) by nia. lia.
Qed.

Lemma g_no_panic : ~ panicked s.
Proof.
  destruct Hr as (mg0 & Hmg & He).
  exact (ad_no_panic _ _ _ M (cCells C) _ Hfin _ _ _ mg0 MInit Hmg (or_intror eq_refl) HWI k s He).
Qed.

Lemma g_depth : Z.of_nat (depth (main s)) <= Z.log2 (cLen C) + 2 /\
  forall c, In c (thr s) -> Z.of_nat (depth c) <= Z.log2 (cLen C) + 2.
Proof.
  destruct Hr as (mg0 & Hmg & He).
  destruct (ad_depth _ _ _ M (cCells C) _ Hfin _ _ _ mg0 MInit Hmg (or_intror eq_refl) HWI k s He) as [H1 H2].
  assert (L := Z.log2_nonneg (cLen C)). split; [lia|]. intros c Hc. specialize (H2 c Hc). lia.
Qed.

Lemma g_chans : 0 <= chans (sh s) <= 1.
Proof.
  destruct Hr as (mg0 & Hmg & He).
  exact (ad_chans _ _ _ M (cCells C) _ Hfin _ _ _ mg0 MInit Hmg (or_intror eq_refl) HWI k s He).
Qed.

Lemma g_single : M <= 1 \/ cLen C < recLimit tn C -> thr s = [] /\ chans (sh s) = 0.
Proof.
  destruct Hr as (mg0 & Hmg & He). intros [HM|HL].
  - exact (ad_single _ _ _ M (cCells C) _ _ _ _ mg0 MInit Hmg (or_intror eq_refl) HWI k s (or_intror HM) He).
  - assert (HWS := call_certified pl tn T C MSeq Hpl Htn HC (or_intror (conj eq_refl HL))).
    exact (ad_single _ _ _ M (cCells C) _ _ _ _ mg0 MSeq Hmg (or_introl eq_refl) HWS k s (or_introl eq_refl) He).
Qed.

Lemma g_progress : (exists r, returned s r) \/ exists s', pstep (cProcs C) s s'.
Proof.
  destruct Hr as (mg0 & Hmg & He).
  exact (ad_progress _ _ _ M (cCells C) _ Hfin _ _ _ mg0 MInit Hmg (or_intror eq_refl) HWI k s He).
Qed.

Lemma g_no_race : ~ race s.
Proof.
  destruct Hr as (mg0 & Hmg & He).
  exact (ad_no_race _ _ _ M (cCells C) _ Hfin _ _ _ mg0 MInit Hmg (or_intror eq_refl) HWI k s He).
Qed.

Lemma g_frame s' : pstep (cProcs C) s s' -> forall i, ~ cCells C i -> mem (sh s') i = mem (sh s) i.
Proof.
  destruct Hr as (mg0 & Hmg & He).
  exact (ad_frame _ _ _ M (cCells C) _ Hfin _ _ _ mg0 MInit Hmg (or_intror eq_refl) HWI k s s' He).
Qed.

Lemma g_in_bounds x w : In (Some (x, w)) (accesses s) -> cCells C x.
Proof.
  destruct Hr as (mg0 & Hmg & He). intro Hin.
  exact (ad_in_bounds _ _ _ M (cCells C) _ Hfin _ _ _ mg0 MInit Hmg (or_intror eq_refl) HWI k s _ x w He Hin eq_refl).
Qed.

Lemma g_active k1 s1 idx : fresh C M k1 s1 -> NoDup idx -> (forall i, In i idx -> busy s1 i) ->
  Z.of_nat (length idx) <= Z.max 1 (2 * (M - 1)).
Proof.
  intros (mg0 & Hmg & He).
  exact (ad_active _ _ _ M (cCells C) _ Hfin _ _ _ mg0 MInit Hmg (or_intror eq_refl) HWI k1 s1 idx He).
Qed.

(** Goroutines at work, whatever the values read from the counter: as many as there are ranges of
    more than MaxLenRec elements. *)
Lemma g_spread idx : NoDup idx -> (forall i, In i idx -> busy s i) ->
  Z.of_nat (length idx) <= Z.max 1 (cLen C / ((if cFC C then maxLenRecFC tn else maxLenRec tn) + 1)).
Proof.
  intros Hnd Hb. destruct Hr as (mg0 & Hmg & He).
  destruct (call_elems pl tn T C Hpl HC) as (L & HL & EL).
  assert (HR : 0 <= (if cFC C then maxLenRecFC tn else maxLenRec tn)).
  { exact (rec_nonneg pl tn (cFC C) Htn). }
  destruct (ad_spread _ _ _ M (cCells C) _ Hfin _ _ _ mg0 MInit Hmg (or_intror eq_refl) HWI k s idx L He HL Hnd Hb)
    as [H|H]; [lia|].
  unfold gr, callGrain in H. rewrite Z2Nat.id, EL in H by exact HR.
  assert (Z.of_nat (length idx) <= cLen C / ((if cFC C then maxLenRecFC tn else maxLenRec tn) + 1)); [|lia].
  apply Z.div_le_lower_bound; lia.
Qed.

Lemma g_counter d : counts (main s) d \/ (exists c, In c (thr s) /\ counts c d) ->
  (d = 1 /\ 0 <= ngor (sh s) /\ ngor (sh s) + 1 < two64) \/
  (d = two64 - 1 /\ 0 < ngor (sh s) /\ ngor (sh s) < two64).
Proof.
  destruct Hr as (mg0 & Hmg & He).
  exact (ad_counter _ _ _ M (cCells C) _ Hfin _ _ _ mg0 MInit Hmg (or_intror eq_refl) HWI k s d He).
Qed.

Lemma g_zero : chans (sh s) = 1 -> ngor (sh s) = 0 ->
  cGoal C (mem (sh s)) /\ quiet (main s) /\ forall c, In c (thr s) -> quiet c.
Proof.
  destruct Hr as (mg0 & Hmg & He). intros H1 H2.
  destruct (ad_zero _ _ _ M (cCells C) _ Hfin _ _ _ mg0 MInit Hmg (or_intror eq_refl) HWI _ k s (fun _ _ _ h => h) He H1 H2) as ([r HP] & H).
  auto.
Qed.

End G.

(** ** Two calls *)

Lemma pstep_maxg {P T R} (body : P -> cmd P T unit) (s s' : st P T R) :
  pstep body s s' -> maxg (sh s') = maxg (sh s).
Proof.
  assert (L : forall A (c : cmd P T A) s c' s' fs, exec_local body c s = Some (c', s', fs) -> maxg s' = maxg s).
  { intros A c s0 c' s0' fs H. unfold exec_local in H. destruct (view c); inversion H; subst; reflexivity. }
  destruct 1 as [s s' H| |]; [destruct H| |]; cbn [sh]; try reflexivity; eapply L; eauto.
Qed.

Lemma env_share {P T R} (body : P -> cmd P T unit) M (Rg : Z -> Prop) k (s0 s : st P T R) w mg :
  exec body M Rg k s0 s -> 0 <= mg <= M -> (forall i, Rg i -> w i = mem (sh s) i) ->
  exec body M Rg k s0 (share s w mg).
Proof.
  intros H Hm Hw. eapply exec_env; [exact H|]. destruct s as [mm ts s']. unfold share. cbn [main thr sh]. constructor; auto.
Qed.

Theorem reach2_reach pl tn T (C1 C2 : call T) M s1 s2 : platOk pl -> tuningOk pl tn ->
  sortCall pl tn C1 -> sortCall pl tn C2 -> (forall i, cCells C1 i -> cCells C2 i -> False) ->
  reach2 C1 C2 M s1 s2 ->
  mem (sh s1) = mem (sh s2) /\ maxg (sh s1) = maxg (sh s2) /\ 0 <= maxg (sh s1) <= M /\
  (exists k1, reach C1 M k1 s1) /\ (exists k2, reach C2 M k2 s2).
Proof.
  intros Hpl Htn H1 H2 Hd H. induction H as [m0 mg0 Hm E1 E2|s1 s2 s1' H IH Hs|s1 s2 s2' H IH Hs|s1 s2 w mg H IH Hm Hw].
  - cbn [start sh mem maxg]. split; [reflexivity|]. split; [reflexivity|]. split; [exact Hm|].
    split; exists O, mg0; (split; [exact Hm|]).
    + apply (env_share (cProcs C1) M (cCells C1) 0 _ (start (cProg C1) (cInit C1) mg0) m0 mg0); [constructor|exact Hm|exact E1].
    + apply (env_share (cProcs C2) M (cCells C2) 0 _ (start (cProg C2) (cInit C2) mg0) m0 mg0); [constructor|exact Hm|exact E2].
  - destruct IH as (Em & Eg & Hg & [k1 R1] & [k2 R2]). cbn [share sh mem maxg].
    split; [reflexivity|]. split; [reflexivity|]. rewrite (pstep_maxg _ _ _ Hs). split; [exact Hg|]. split.
    + destruct R1 as (g0 & Hg0 & R1). exists (S k1), g0. split; [exact Hg0|]. eapply exec_prog; eauto.
    + assert (Fr := g_frame pl tn Hpl Htn C1 H1 M k1 s1 R1 s1' Hs).
      destruct R2 as (g0 & Hg0 & R2). exists k2, g0. split; [exact Hg0|].
      apply env_share; [exact R2|exact Hg|]. intros i Hi. rewrite Fr, Em; [reflexivity|]. intro Hi1. exact (Hd i Hi1 Hi).
  - destruct IH as (Em & Eg & Hg & [k1 R1] & [k2 R2]). cbn [share sh mem maxg].
    split; [reflexivity|]. split; [reflexivity|]. rewrite (pstep_maxg _ _ _ Hs), <- Eg. split; [exact Hg|]. split.
    + assert (Fr := g_frame pl tn Hpl Htn C2 H2 M k2 s2 R2 s2' Hs).
      destruct R1 as (g0 & Hg0 & R1). exists k1, g0. split; [exact Hg0|].
      apply env_share; [exact R1|exact Hg|]. intros i Hi. rewrite Fr, Em; [reflexivity|]. intro Hi2. exact (Hd i Hi Hi2).
    + destruct R2 as (g0 & Hg0 & R2). exists (S k2), g0. split; [exact Hg0|]. eapply exec_prog; eauto.
  - destruct IH as (Em & Eg & Hg & [k1 R1] & [k2 R2]). cbn [share sh mem maxg].
    split; [reflexivity|]. split; [reflexivity|]. split; [exact Hm|]. split.
    + destruct R1 as (g0 & Hg0 & R1). exists k1, g0. split; [exact Hg0|]. apply env_share; auto.
    + destruct R2 as (g0 & Hg0 & R2). exists k2, g0. split; [exact Hg0|]. apply env_share; auto.
      intros i Hi. rewrite <- Em. auto.
Qed.
