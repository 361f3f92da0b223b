(** * The garbage collector and the sorting API *)

From Coq Require Import List ZArith Lia Bool Permutation Arith.
From Verif Require Import Lang Trace Calls Scalar Typed Kinds Spec Lsw Base Guarantee AnyFacts CalmTop Collect.
Import ListNotations.
Open Scope Z_scope.

Lemma elem_dec e (v w : elem e) : v = w \/ v <> w.
Proof.
  enough (D : {v = w} + {v <> w}) by (destruct D; auto).
  destruct e; cbn [elem] in *; try exact (Z.eq_dec v w); repeat decide equality; apply Z.eq_dec.
Qed.

(** From any moment on, a call may come to its end. *)
Lemma may_return pl tn T (C : call T) M k s : platOk pl -> tuningOk pl tn -> sortCall pl tn C -> reach C M k s ->
  exists tr s', texec (cProcs C) M (cCells C) tr s s' /\ returned s' tt /\ exists k', reach C M k' s'.
Proof.
  intros Hpl Htn HC. set (B := Z.to_nat (100 * cLen C * cLen C + 6 * cLen C + 20)).
  enough (G : forall n k s, (B - k < n)%nat -> reach C M k s ->
    exists tr s', texec (cProcs C) M (cCells C) tr s s' /\ returned s' tt /\ exists k', reach C M k' s').
  { intro HR. apply (G (S (B - k)) k s); [lia|exact HR]. }
  clear k s. induction n as [|n IH]; intros k s Hn HR; [lia|].
  destruct (g_progress pl tn Hpl Htn C HC M k s HR) as [[[] Hr]|[s1 Hs]].
  - exists [], s. split; [constructor|]. split; [exact Hr|eauto].
  - assert (HR1 : reach C M (S k) s1).
    { destruct HR as (mg0 & Hmg & He). exists mg0. split; [exact Hmg|]. eapply exec_prog; eassumption. }
    assert (St := g_steps pl tn Hpl Htn C HC M (S k) s1 HR1).
    destruct (IH (S k) s1 ltac:(subst B; lia) HR1) as (tr & s' & Ht & Hr & HR').
    destruct (pstep_tstep _ _ _ Hs) as (e & He). exists (e :: tr), s'. split; [|auto].
    clear - Ht He. induction Ht as [s1|tr f s1 s2 s3 Ht IH Hs|tr s1 s2 s3 Ht IH Hs].
    + apply (texec_prog _ _ _ [] e s s s1); [constructor|exact He].
    + change (e :: tr ++ [f]) with ((e :: tr) ++ [f]). eapply texec_prog; [apply IH; exact He|exact Hs].
    + eapply texec_env; [apply IH; exact He|exact Hs].
Qed.

Lemma goal_in pl tn T (C : call T) w x : sortCall pl tn C -> cGoal C w -> cCells C x -> exists y, cCells C y /\ w y = cInit C x.
Proof.
  intros HC HG Hx.
  assert (K : exists o n, 0 <= n /\ (forall x, cCells C x <-> o <= x < o + n) /\
    Permutation (contents w (Slice o n)) (contents (cInit C) (Slice o n))).
  { destruct HC as [e opt s m0 [Hs _] _|T lt lq cap n m0 _ Hn _].
    - exists (off s), (len s). destruct HG as [HP _]. destruct s as [o n]. split; [apply Hs|]. split; [reflexivity|exact HP].
    - exists 0, n. destruct HG as [HP _]. split; [lia|]. split; [reflexivity|exact HP]. }
  destruct K as (o & n & Hn & Hc & HP). apply Hc in Hx.
  assert (Hin : In (cInit C x) (contents w (Slice o n))).
  { eapply Permutation_in; [apply Permutation_sym; exact HP|]. unfold contents. apply in_map_iff.
    exists (Z.to_nat (x - o)). cbn [off len]. split; [f_equal; lia|apply in_seq; lia]. }
  unfold contents in Hin. apply in_map_iff in Hin. destruct Hin as (j & Ej & Hj). cbn [off len] in *. apply in_seq in Hj.
  exists (o + Z.of_nat j). split; [apply Hc; lia|exact Ej].
Qed.

(** With the barrier: when marking has ended, all elements the call was given are marked, and whatever will
    be in their places. *)
Theorem seen_all pl tn T (C : call T) M s L X N : platOk pl -> tuningOk pl tn -> sortCall pl tn C ->
  (forall v w : T, v = w \/ v <> w) -> marking true true C M s L X N -> ended C s X N ->
  (forall x, cCells C x -> In (cInit C x) L) /\
  forall tr s', texec (cProcs C) M (cCells C) tr s s' -> forall x, cCells C x -> In (mem (sh s') x) L.
Proof.
  intros Hpl Htn HC dec H HE.
  assert (G := marking_seen C M dec (fun k s x w HR Hin => g_in_bounds pl tn Hpl Htn C HC M k s HR x w Hin) s L X N H HE).
  split; [|exact G]. intros x Hx. destruct (marking_reach H) as (k & HR).
  destruct (may_return pl tn T C M k s Hpl Htn HC HR) as (tr & s' & Ht & Hr & k' & HR').
  destruct (goal_in pl tn T C (mem (sh s')) x HC (proj1 (g_goal pl tn Hpl Htn C HC M k' s' HR' tt Hr)) Hx) as (y & Hy & <-).
  exact (G tr s' Ht y Hy).
Qed.

(** Any elements, comparable or not. *)
Theorem seen_any pl tn opt e sl m0 M s L X N : platOk pl -> tuningOk pl tn -> typedSlice pl e m0 sl ->
  marking true true (typedCall pl tn opt e sl m0) M s L X N -> ended (typedCall pl tn opt e sl m0) s X N ->
  forall tr s', texec (cProcs (typedCall pl tn opt e sl m0)) M (cellsOf sl) tr s s' -> forall x, cellsOf sl x -> In (mem (sh s') x) L.
Proof.
  intros Hpl Htn Hty H HE. apply (marking_seen (typedCall pl tn opt e sl m0) M (elem_dec e)) with (X := X) (N := N); [|exact H|exact HE].
  intros k st x w HR Hin. destruct (any_call pl tn opt e sl m0 Hpl Htn Hty M k st HR) as (_ & B & _). exact (B x w Hin).
Qed.

(** In order already. *)
Theorem seen_sorted pl tn T (C : call T) barrier stacks M s L X N : platOk pl -> nearMean pl -> tuningOk pl tn -> sortedCall pl tn C ->
  marking barrier stacks C M s L X N -> ended C s X N -> forall x, cCells C x -> In (cInit C x) L /\ mem (sh s) x = cInit C x.
Proof.
  intros Hpl Hn Htn HS H [HX _] x Hx. destruct (marking_reach H) as (k & HR). split.
  - eapply marking_still; [|exact H|exact (HX x Hx)]. intros j u y HRu Hy.
    exact (proj2 (sorted_untouched pl tn T C M j u Hpl Hn Htn HS HRu) y Hy).
  - exact (proj2 (sorted_untouched pl tn T C M k s Hpl Hn Htn HS HR) x Hx).
Qed.
