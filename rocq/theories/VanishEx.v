(** * A Lesswap that does not return: an execution *)

From Coq Require Import List ZArith Lia Bool.
From Verif Require Import Lang Typed Trace Spec Lsw Calls Witness Examples Vanish.
Import ListNotations.
Open Scope Z_scope.

(** Who takes part in a choice of the scheduler. *)
Definition party (ch : choice) : list nat :=
  match ch with CMain => [0%nat] | CThr i => [S i] | CToMain i => [0%nat; S i] end.

Lemma split_len {X} n (l : list X) l1 x l2 : split_at n l = Some (l1, x, l2) -> length l1 = n.
Proof.
  revert n l1. induction l as [|y l IH]; intros n l1 H; [discriminate|]. destruct n as [|n]; cbn [split_at] in H; [inversion H; reflexivity|].
  destruct (split_at n l) as [[[a b] c]|] eqn:E; [|discriminate]. inversion H; subst. cbn. f_equal. apply (IH n a E).
Qed.

Lemma run1_tstep {P T R} (body : P -> cmd P T unit) ch (s s' : st P T R) : run1 body ch s = Some s' ->
  exists e, tstep body e s s' /\ forall t, doneBy e t -> In t (party ch).
Proof.
  assert (L : forall A t n (c : cmd P T A) u, doneBy (Trace.label t n c) u -> u = t) by (intros A t n c u; unfold Trace.label; destruct (view c); auto).
  intro H. destruct s as [m ts s]. destruct ch as [|i|i]; cbn [run1 main thr sh party] in *.
  - destruct (exec_local body m s) as [[[m' s1] fs]|] eqn:E; [|discriminate]. inversion H; subst. eexists. split; [apply tstep_main; exact E|].
    intros t Ht. left. symmetry. eapply L. exact Ht.
  - destruct (split_at i ts) as [[[l1 c] l2]|] eqn:Es; [|discriminate]. destruct (exec_local body c s) as [[[c' s1] fs]|] eqn:E; [|discriminate].
    inversion H; subst. assert (Hl := split_len _ _ _ _ _ Es). apply split_at_app in Es. subst. eexists. split; [apply tstep_thr; exact E|].
    intros t Ht. left. symmetry. eapply L. exact Ht.
  - destruct (split_at i ts) as [[[l1 c] l2]|] eqn:Es; [|discriminate]. destruct (view c) eqn:Ec; try discriminate. destruct (view m) eqn:Em; try discriminate.
    inversion H; subst. assert (Hl := split_len _ _ _ _ _ Es). apply split_at_app in Es. subst. eexists. split; [eapply tstep_to_main; eassumption|].
    intros t [->| ->]; cbn; auto.
Qed.

(** [rotate] without goroutines [D]. *)
Definition avoids (D : list nat) (ch : choice) : bool := forallb (fun t => negb (existsb (Nat.eqb t) D)) (party ch).

Fixpoint rotateBut {P T R} (body : P -> cmd P T unit) (D : list nat) (fuel n : nat) (s : st P T R) : st P T R :=
  match fuel with
  | O => s
  | S f =>
      let chs := filter (avoids D) (allChoices s) in
      let m := Nat.modulo n (length chs) in
      match firstOf body (skipn m chs ++ firstn m chs) s with Some s' => rotateBut body D f (S n) s' | None => s end
  end.

Lemma firstOf_in {P T R} (body : P -> cmd P T unit) chs (s s' : st P T R) : firstOf body chs s = Some s' ->
  exists ch, In ch chs /\ run1 body ch s = Some s'.
Proof.
  induction chs as [|ch chs IH]; cbn [firstOf]; [discriminate|]. destruct (run1 body ch s) as [s1|] eqn:E.
  - intro H. inversion H; subst. exists ch. split; [left; reflexivity|exact E].
  - intro H. destruct (IH H) as (c & Hc & Hr). exists c. split; [right; exact Hc|exact Hr].
Qed.

Lemma forsaken_rotate {T} (C : call T) M D f : forall k n s, forsaken C M k D s ->
  exists k', forsaken C M k' D (rotateBut (cProcs C) D f n s).
Proof.
  induction f as [|f IH]; intros k n s H; cbn [rotateBut]; [eauto|]. cbv zeta.
  match goal with |- context [match ?X with Some _ => _ | None => _ end] => destruct X as [s1|] eqn:E end; [|eauto].
  destruct (firstOf_in _ _ _ _ E) as (ch & Hch & Hr). apply (IH (S k)).
  destruct (run1_tstep _ _ _ _ Hr) as (e & He & Hp). eapply fs_prog; [exact H|exact He|].
  intros t Ht Hd. apply Hp in Ht. assert (Ha : avoids D ch = true).
  { assert (Hf : In ch (filter (avoids D) (allChoices s))).
    { rewrite <- (firstn_skipn (Nat.modulo n (length (filter (avoids D) (allChoices s)))) (filter (avoids D) (allChoices s))).
      apply in_app_iff. apply in_app_iff in Hch. tauto. }
    apply filter_In in Hf. apply Hf. }
  unfold avoids in Ha. rewrite forallb_forall in Ha. specialize (Ha t Ht). apply negb_true_iff in Ha.
  assert (Q : existsb (Nat.eqb t) D = true) by (apply existsb_exists; exists t; split; [exact Hd|apply Nat.eqb_refl]). congruence.
Qed.

(** 60 pairs being sorted by three goroutines, of which the last but one started stops. *)
Definition lastState := rotateBut (cProcs pCall) [2%nat] (Z.to_nat 30000) 0 pMid.

Definition idleB {P T R} (c : cmd P T R) : bool := match view c with HRet _ | HRecv _ => true | _ => false end.
Definition idlesB {P T} (D : list nat) (s : st P T unit) : bool :=
  forallb (fun t => existsb (Nat.eqb t) D || match nth_error (main s :: thr s) t with Some c => idleB c | None => true end) (seq 0 (S (length (thr s)))).

Lemma idles_waiting {P T} D (s : st P T unit) : idlesB D s = true -> waiting D s.
Proof.
  intro H. unfold idlesB in H. rewrite forallb_forall in H.
  assert (K : forall t c, nth_error (main s :: thr s) t = Some c -> ~ In t D -> idleB c = true).
  { intros t c Hn Hi. assert (Hl : (t < length (main s :: thr s))%nat) by (apply nth_error_Some; congruence). cbn [length] in Hl.
    specialize (H t ltac:(apply in_seq; lia)). rewrite Hn in H. apply orb_true_iff in H. destruct H as [H|H]; [|exact H].
    exfalso. apply existsb_exists in H. destruct H as (u & Hu & E). apply Nat.eqb_eq in E. subst. contradiction. }
  intros t c Hn Hi. specialize (K t c Hn Hi) as Kc. unfold idleB in Kc. destruct (view c) as [[]| | | | | | | | | | | |k] eqn:E; try discriminate; [auto|].
  right. right. exists k. split; [reflexivity|]. intros u d v k' Hd Hj F. specialize (K u d Hd Hj). unfold idleB in K. rewrite F in K. discriminate.
Qed.

Definition recvB {P T R} (c : cmd P T R) : bool := match view c with HRecv _ => true | _ => false end.
Lemma recv_true {P T R} (c : cmd P T R) : recvB c = true -> exists k, view c = HRecv k.
Proof. unfold recvB. destruct (view c); try discriminate. eauto. Qed.

Lemma last_forsaken : exists k, forsaken pCall 3 k [2%nat] lastState.
Proof.
  destruct ex_lsw_mid as ((k & HR) & _ & Ha & _).
  assert (H : forsaken pCall 3 k [2%nat] pMid).
  { apply (fs_stop pCall 3 k [] pMid 2 38 false); [apply reach_forsaken; exact HR|rewrite Ha; reflexivity]. }
  destruct (forsaken_rotate pCall 3 [2%nat] (Z.to_nat 30000) k 0 pMid H) as [k' H']. exists k'. exact H'.
Qed.

(** The caller waits for ever for the one that has stopped. *)
Theorem blocked : exists k s, forsaken pCall 3 k [2%nat] s /\ waiting [2%nat] s /\ exists c, view (main s) = HRecv c.
Proof.
  destruct last_forsaken as [k H]. exists k, lastState. split; [exact H|]. split; [apply (idles_waiting [2%nat] lastState); vm_compute; reflexivity|].
  apply (recv_true (main lastState)). vm_compute. reflexivity.
Qed.
