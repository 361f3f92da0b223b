(** * Calls of the typed sorters whatever the comparisons answer (NaNs included) *)

From Coq Require Import List ZArith Lia Bool Permutation.
From Verif Require Import Lang SeqLogic ConcLogic Adequacy Trace SafeLogic HappensBefore SafeAdequacy
  Base Scalar Typed SeqOps TypedShort TypedSort AnySort Kinds Spec KindsFacts TypedApi Lsw Calls Guarantee TraceFacts.
Import ListNotations.
Open Scope Z_scope.

Lemma any_safe pl tn opt e s m0 : platOk pl -> tuningOk pl tn -> typedSlice pl e m0 s ->
  safe tn (typedCall pl tn opt e s m0) (fun w => Permutation (contents w s) (contents m0 s)) MInit.
Proof.
  intros Hpl Htn Hty m.
  assert (G : forall m', sp (Gr := callGrain tn (typedCall pl tn opt e s m0)) (procs pl tn e) (Z.to_nat (Z.log2 (len s) + 2)) m' (Z.to_nat (Z.log2 (len s) + 2))
    (QMS (fun (_ : unit) w => Permutation (contents w s) (contents m0 s)))
    (sort (kindOf pl e) tn (mI pl) s) (Gst (reg s) (reg s) m0 MInit 0)).
  { intro m'. destruct Hty as [[H0 Hb] _]. rewrite (intSize_eq pl) in Hb.
    rewrite <- (typed_grain pl tn opt e s m0). eapply sp_conseq.
    - apply (sp_sort (kindOf pl e) tn (mI pl) (meanOk_of pl Hpl) (tuning_ins (kindOf pl e) tn Htn)
        (tuning_rec (kindOf pl e) tn Htn) _ (tuning_rec2 (kindOf pl e) tn Htn) m' (reg s) s m0 0 MInit); auto.
    - lia.
    - intros [] g. unfold QMS, QM. assert (K : forall w, permX (reg s) s m0 w -> Permutation (contents w s) (contents m0 s)).
      { intros w [HP _]. rewrite !contents_seg. exact HP. }
      destruct (md g); auto. }
  cbn [typedCall cProcs cProg cCells cInit cLen]. unfold sortProg, sortLive.
  destruct (isFloat e) eqn:Ef; [|apply G].
  destruct (Z.eq_dec opt 1) as [E1|E1]; [|destruct (Z.eq_dec opt (-1)) as [E2|E2]].
  1,2: assert (Hs : sortable e opt (contents m0 s)) by (unfold sortable; auto);
    assert (H := certified_safe _ _ _ (exactly_certified _ _ _ _ (typed_exactly pl tn opt e s m0 MInit Hpl Htn Hty Hs (or_introl eq_refl))) m);
    cbn [typedCall cProcs cProg cCells cInit cLen cGoal] in H; unfold sortProg, sortLive in H; rewrite Ef in H;
    eapply sp_conseq; [exact H|lia|]; intros [] g; unfold QMS, QM; destruct (md g); intro K; try exact K; intros w Hw; apply (K w Hw).
  unfold prepass. destruct (Z.eqb_spec opt NaNlarge); [contradiction|].
  destruct (Z.eqb_spec opt NaNsmall); [contradiction|]. 
  eapply sp_bind with (Q1 := fun b g' => b = s /\ g' = Gst (reg s) (reg s) m0 MInit 0).
  - apply sp_ret. auto.
  - intros b g' m' _ [-> ->]. apply G.
Qed.

Section Any.
Variables (pl : plat) (tn : tuning) (opt : Z) (e : ety) (s : slice) (m0 : Z -> elem e).
Hypothesis Hpl : platOk pl.
Hypothesis Htn : tuningOk pl tn.
Hypothesis Hty : typedSlice pl e m0 s.
Let C := typedCall pl tn opt e s m0.
Let HW := any_safe pl tn opt e s m0 Hpl Htn Hty.
Let Hfin : finite C := slice_finite pl (off s) (len s) Hpl (proj1 Hty).

Lemma any_call M k st : reach C M k st ->
  ~ panicked st /\ (forall x w, In (Some (x, w)) (accesses st) -> cellsOf s x) /\
  (forall st', pstep (cProcs C) st st' -> forall i, ~ cellsOf s i -> mem (sh st') i = mem (sh st) i) /\
  0 <= chans (sh st) <= 1 /\
  Z.of_nat (depth (main st)) <= Z.log2 (len s) + 2 /\
  (forall c, In c (thr st) -> Z.of_nat (depth c) <= Z.log2 (len s) + 2) /\
  ((exists r, returned st r) \/ exists st', pstep (cProcs C) st st') /\
  (returned st tt -> Permutation (contents (mem (sh st)) s) (contents m0 s) /\
     forall x w, ~ In (Some (x, w)) (accesses st)).
Proof.
  intros (mg0 & Hmg & He). assert (L := Z.log2_nonneg (len s)).
  split; [exact (sad_no_panic _ _ _ M (cCells C) _ Hfin _ _ mg0 MInit Hmg (or_intror eq_refl) HW k st He)|].
  split; [intros x w Hin; exact (sad_in_bounds _ _ _ M (cCells C) _ Hfin _ _ mg0 MInit Hmg (or_intror eq_refl) HW k st _ x w He Hin eq_refl)|].
  split; [exact (fun st' => sad_frame _ _ _ M (cCells C) _ Hfin _ _ mg0 MInit Hmg (or_intror eq_refl) HW k st st' He)|].
  split; [exact (sad_chans _ _ _ M (cCells C) _ Hfin _ _ mg0 MInit Hmg (or_intror eq_refl) HW k st He)|].
  destruct (sad_depth _ _ _ M (cCells C) _ Hfin _ _ mg0 MInit Hmg (or_intror eq_refl) HW k st He) as [D1 D2].
  assert (D3 : (depth (main st) <= Z.to_nat (Z.log2 (len s) + 2))%nat) by exact D1.
  assert (D4 : forall c, In c (thr st) -> (depth c <= Z.to_nat (Z.log2 (len s) + 2))%nat) by exact D2.
  split; [lia|]. split; [intros c Hc; specialize (D4 c Hc); lia|].
  split; [exact (sad_progress _ _ _ M (cCells C) _ Hfin _ _ mg0 MInit Hmg (or_intror eq_refl) HW k st He)|].
  intro Hr. split.
  - exact (sad_return _ _ _ M (cCells C) _ Hfin _ _ mg0 MInit Hmg (or_intror eq_refl) HW k st tt He Hr).
  - exact (sad_quiet _ _ _ M (cCells C) _ Hfin _ _ mg0 MInit Hmg (or_intror eq_refl) HW k st tt He Hr).
Qed.

Lemma any_norace M tr st pre : traced C M tr st -> callerOnly pre ->
  ~ dataRace (pre ++ tr) /\
  forall post, returned st tt -> callerOnly post -> ~ dataRace (pre ++ tr ++ post).
Proof.
  intros (mg0 & Hmg & Ht) Hpre.
  destruct (sad_surroundings _ _ _ M (cCells C) _ Hfin _ _ mg0 MInit Hmg (or_intror eq_refl) HW tr st pre Ht Hpre)
    as [H1 H2].
  split; [exact H1|]. intros post Hret Hpost. eapply H2; eauto.
Qed.

(** Goroutines about to access an element, whatever the values read from the counter. *)
Lemma any_spread M k st idx : reach C M k st -> NoDup idx ->
  (forall i, In i idx -> exists x w, nth_error (accesses st) i = Some (Some (x, w))) ->
  Z.of_nat (length idx) <= Z.max 1 (len s / ((if cFC C then maxLenRecFC tn else maxLenRec tn) + 1)).
Proof.
  intros (mg0 & Hmg & He) Hnd Hb.
  destruct (slice_elems (off s) (len s) ltac:(apply Hty)) as (L & HL & EL).
  assert (HR := rec_nonneg pl tn (cFC C) Htn).
  destruct (sad_spread _ _ _ M (cCells C) _ Hfin _ _ mg0 MInit Hmg (or_intror eq_refl) HW k st idx L He HL Hnd Hb)
    as [H|H]; [lia|].
  unfold gr in H. change (typedCall pl tn opt e s m0) with C in H. unfold callGrain in H. rewrite Z2Nat.id, EL in H by exact HR.
  assert (Z.of_nat (length idx) <= len s / ((if cFC C then maxLenRecFC tn else maxLenRec tn) + 1)); [|lia].
  apply Z.div_le_lower_bound; lia.
Qed.

End Any.
