(** * Concrete runs: a Lesswap that panics in the caller's goroutine *)

From Coq Require Import List ZArith Lia Bool.
From Verif Require Import Lang Scalar Typed Spec Lsw Calls Witness Examples Abandon.
Import ListNotations.
Open Scope Z_scope.

Definition reading {P T R} (s : st P T R) : bool := match access (main s) with Some (_, false) => true | _ => false end.

(** [f] steps from the call, the caller leaves, [f'] steps of the others. *)
Lemma leave {T} (C : call T) M mg (f n f' n' : nat) : 0 <= mg <= M ->
  reading (rotate (cProcs C) f n (start (cProg C) (cInit C) mg)) = true ->
  exists k, abandoned C M k (rotate (cProcs C) f' n' (remains (rotate (cProcs C) f n (start (cProg C) (cInit C) mg)))).
Proof.
  intros Hm. destruct (rotate_reach C M mg f n Hm) as [k1 H1]. revert H1.
  generalize (rotate (cProcs C) f n (start (cProg C) (cInit C) mg)). intros s H1 Hr.
  unfold reading in Hr. destruct (access (main s)) as [[x []]|] eqn:E; try discriminate.
  destruct (rotate_exec (cProcs C) M (cCells C) f' n' (remains s)) as [k2 H2].
  exists (k2 + k1)%nat. exact (abandoned_exec C M k1 (remains s) k2 _ (ab_leave C M k1 s x H1 E) H2).
Qed.

(** 60 pairs; the caller leaves after 100 steps, while it partitions together with a helper.  The helper
    goes on to exchange elements. *)
Lemma left_writes : exists k s, abandoned pCall 3 k s /\ exists x, In (Some (x, true)) (accesses s).
Proof.
  destruct (leave pCall 3 3 100 0 11 0 ltac:(lia)) as [k H]; [vm_compute; reflexivity|].
  eexists k, _. split; [exact H|]. clear H. eexists. vm_compute. right. left. reflexivity.
Qed.

(** In the end it waits for the caller to receive its result, forever. *)
Lemma leak {P T} (s : st P T unit) c : thr s = [c] -> (exists v k, view c = HSend v k) -> settled s.
Proof.
  intros E H. exists O. rewrite E. intros [|[|j]] c' Hj; try discriminate. injection Hj as <-. right. auto.
Qed.

Definition sends {P T A} (c : cmd P T A) : bool := match view c with HSend _ _ => true | _ => false end.
Lemma sends_true {P T A} (c : cmd P T A) : sends c = true -> exists v k, view c = HSend v k.
Proof. unfold sends. destruct (view c); try discriminate. eauto. Qed.

Lemma one_thread {P T} (s : st P T unit) : match thr s with [c] => sends c | _ => false end = true ->
  settled s /\ exists c v k, In c (thr s) /\ view c = HSend v k.
Proof.
  destruct (thr s) as [|c [|c' l]] eqn:E; try discriminate. intro H. apply sends_true in H. split; [exact (leak s c E H)|].
  destruct H as (v & k & H). exists c, v, k. split; [left; reflexivity|exact H].
Qed.

Lemma left_blocked : exists k s, abandoned pCall 3 k s /\ settled s /\ exists c v k', In c (thr s) /\ view c = HSend v k'.
Proof.
  destruct (leave pCall 3 3 100 0 3000 0 ltac:(lia)) as [k H]; [vm_compute; reflexivity|].
  eexists k, _. split; [exact H|]. clear H. apply one_thread. vm_compute. reflexivity.
Qed.

Lemma pair_irreflexive : irreflexive pairGt.
Proof. intro x. unfold pairGt. apply Z.ltb_irrefl. Qed.
