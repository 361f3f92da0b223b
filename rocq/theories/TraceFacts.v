(** * Calls and the Go memory model *)

From Coq Require Import List ZArith Lia Bool Permutation.
From Verif Require Import Lang SeqLogic ConcLogic Adequacy Trace SafeLogic HappensBefore SafeAdequacy
  Scalar Typed Kinds Spec Lsw Calls Guarantee.
Import ListNotations.
Open Scope Z_scope.

(** The logic's statement, for calls that need not return. *)
Definition safe {T} (tn : tuning) (C : call T) (Q : (Z -> T) -> Prop) (md0 : mode T) : Prop :=
  forall m, sp (Gr := callGrain tn C) (cProcs C) (Z.to_nat (Z.log2 (cLen C) + 2)) m (Z.to_nat (Z.log2 (cLen C) + 2))
    (QMS (fun (_ : unit) w => Q w)) (cProg C) (Gst (cCells C) (cCells C) (cInit C) md0 0).

Lemma certified_safe {T} tn (C : call T) md0 : certified tn C md0 -> safe tn C (cGoal C) md0.
Proof.
  intros H m. eapply wp_sp; [|exact H]. intros a n g. unfold QMS, QM. destruct (md g); auto.
Qed.

Lemma reach_traced {T} (C : call T) M k s : reach C M k s <-> exists tr, length tr = k /\ traced C M tr s.
Proof.
  split.
  - intros (mg0 & Hmg & He). destruct (exec_texec _ _ _ _ _ _ He) as (tr & E & Ht).
    exists tr. split; [exact E|]. exists mg0. auto.
  - intros (tr & <- & mg0 & Hmg & Ht). exists mg0. split; [exact Hmg|]. eapply texec_exec; eassumption.
Qed.

Lemma traced_norace pl tn T (C : call T) M tr s pre : platOk pl -> tuningOk pl tn -> sortCall pl tn C ->
  traced C M tr s -> callerOnly pre ->
  ~ dataRace (pre ++ tr) /\
  forall post, returned s tt -> callerOnly post -> ~ dataRace (pre ++ tr ++ post).
Proof.
  intros Hpl Htn HC (mg0 & Hmg & Ht) Hpre.
  assert (HW := certified_safe tn C MInit (call_certified pl tn T C MInit Hpl Htn HC (or_introl eq_refl))).
  assert (Hfin := call_finite pl tn T C Hpl HC).
  destruct (sad_surroundings _ _ _ M (cCells C) _ Hfin _ _ mg0 MInit Hmg (or_intror eq_refl) HW tr s pre Ht Hpre)
    as [H1 H2].
  split; [exact H1|]. intros post Hret Hpost. eapply H2; eauto.
Qed.

(** The definition of a race is not empty. *)
Lemma race_without_order : dataRace [EvGo 0 1; EvWrite 0 5; EvWrite 1 5].
Proof.
  exists 1%nat, 2%nat, (EvWrite 0 5), (EvWrite 1 5), 5, true, true.
  split; [lia|]. split; [reflexivity|]. split; [reflexivity|].
  split; [right; eauto|]. split; [right; eauto|]. split; [auto|].
  assert (G : forall i j, hb [EvGo 0 1; EvWrite 0 5; EvWrite 1 5] i j -> i = O).
  { induction 1; auto.
    - destruct i as [|[|[|[|i]]]]; destruct j as [|[|[|[|j]]]]; simpl in *; try lia; try discriminate.
      inversion H0; inversion H1; subst; simpl in *. lia.
    - destruct i as [|[|[|[|i]]]]; simpl in *; try lia; discriminate.
    - destruct i as [|[|[|[|i]]]]; simpl in *; try lia; discriminate. }
  intro H. specialize (G _ _ H). lia.
Qed.
