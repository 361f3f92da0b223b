(** * Soundness of the sequential logic on the machine *)

From Coq Require Import List ZArith Lia Bool.
From Verif Require Import Lang SeqLogic.
Import ListNotations.
Open Scope Z_scope.

Section S.
Context {P T R : Type}.
Variable body : P -> cmd P T unit.
Variables (D N : nat) (M : Z) (Rd Wr : Z -> Prop) (Q : R -> nat -> (Z -> T) -> Prop)
  (c0 : cmd P T R) (m0 : Z -> T) (mg0 : Z).
Hypothesis HW : swp body D N Rd Wr Q c0 m0.

Definition seqInv (k : nat) (s : st P T R) : Prop :=
  thr s = [] /\ chans (sh s) = 0 /\
  exists n v, swp body D n Rd Wr Q (main s) v /\ (k + n <= N)%nat /\
    (forall i, Rd i -> mem (sh s) i = v i) /\ (forall i, ~ Wr i -> v i = m0 i).

Lemma seq_step k s s' : pstep body s s' -> seqInv k s -> seqInv (S k) s'.
Proof.
  intros Hs (Ht & Hc & n & v & HS & Hn & Hm & Hf).
  destruct Hs as [s s' [m ts s0 m' s0' fs He| | | | |]|m ts s0 k0 z Hz|]; cbn [main thr sh] in *; subst; try (destruct l1; discriminate);
    [|rewrite swp_eq, Hz in HS; destruct HS as [_ HS]; destruct n; contradiction].
  rewrite swp_eq in HS. destruct HS as [Hd HS]. unfold exec_local in He.
  destruct (view m) eqn:Ev; try contradiction; try discriminate; destruct n as [|n]; try contradiction;
    inversion He; subst; (split; [reflexivity|]; split; [exact Hc|]).
  - exists n, v. split; [exact HS|]. split; [lia|auto].
  - destruct HS as [Hi HS]. exists n, v. rewrite Hm by exact Hi. split; [exact HS|]. split; [lia|auto].
  - destruct HS as [Hi HS]. exists n, (upd v i v0). split; [exact HS|]. split; [lia|]. cbn [sh mem]. split.
    + intros j Hj. unfold upd. destruct (j =? i); auto.
    + intros j Hj. unfold upd. destruct (Z.eqb_spec j i); [subst; contradiction|auto].
  - exists n, v. split; [exact HS|]. split; [lia|auto].
Qed.

Lemma seq_reach k s : exec body M Rd k (start c0 m0 mg0) s -> seqInv k s.
Proof.
  intro H. remember (start c0 m0 mg0) as s0 eqn:E. induction H; subst.
  - split; [reflexivity|]. split; [reflexivity|]. exists N, m0. cbn. auto.
  - eapply seq_step; eauto.
  - destruct (IHexec eq_refl) as (Ht & Hc & n0 & v & HS & Hn & Hm & Hf).
    destruct H0; cbn [main thr sh mem chans] in *. split; [exact Ht|]. split; [exact Hc|].
    exists n0, v. split; [exact HS|]. split; [exact Hn|]. split; [|exact Hf].
    intros i Hi. cbn [sh mem]. rewrite H1 by exact Hi. auto.
Qed.

Theorem seq_safe k s : exec body M Rd k (start c0 m0 mg0) s ->
  thr s = [] /\ chans (sh s) = 0 /\ (k <= N)%nat /\ ~ panicked s /\
  (forall x w, In (Some (x, w)) (accesses s) -> if w : bool then Wr x else Rd x) /\
  (forall i, Rd i -> ~ Wr i -> mem (sh s) i = m0 i) /\
  ((exists r, returned s r) \/ exists s', pstep body s s').
Proof.
  intro H. destruct (seq_reach k s H) as (Ht & Hc & n & v & HS & Hn & Hm & Hf).
  rewrite swp_eq in HS. destruct HS as [_ HS].
  split; [exact Ht|]. split; [exact Hc|]. split; [lia|]. split; [|split; [|split]].
  - intros [Hp|(c & Hin & _)]; [rewrite Hp in HS; exact HS|rewrite Ht in Hin; exact Hin].
  - unfold accesses. rewrite Ht. intros x w [Ha|[]]. unfold access in Ha.
    destruct (view (main s)); try discriminate; inversion Ha; subst; destruct n; try contradiction; apply HS.
  - intros i H1 H2. rewrite Hm by exact H1. auto.
  - destruct s as [m ts sh0]. cbn [main thr sh] in *. subst ts. destruct (view m) eqn:Ev; try contradiction.
    + left. eexists. exact Ev.
    + right. eexists. apply step_now, step_main. unfold exec_local. rewrite Ev. reflexivity.
    + right. eexists. apply step_now, step_main. unfold exec_local. rewrite Ev. reflexivity.
    + right. eexists. apply step_now, step_main. unfold exec_local. rewrite Ev. reflexivity.
    + right. eexists. apply step_now, step_main. unfold exec_local. rewrite Ev. reflexivity.
Qed.

Theorem seq_return k s r : exec body M Rd k (start c0 m0 mg0) s -> returned s r ->
  exists n v, Q r n v /\ (forall i, Rd i -> mem (sh s) i = v i) /\ (forall i, ~ Wr i -> v i = m0 i).
Proof.
  intros H Hr. destruct (seq_reach k s H) as (Ht & Hc & n & v & HS & Hn & Hm & Hf).
  rewrite swp_eq in HS. destruct HS as [_ HS]. unfold returned in Hr. rewrite Hr in HS. eauto.
Qed.

End S.
