(** * Examples for [AlikeTop.v] *)

From Coq Require Import List ZArith Lia Bool Permutation.
From Verif Require Import Lang Kinds Typed Trace Spec Lsw Calls TraceFacts Witness Examples AlikeTop AlikeTyped.
Import ListNotations.
Open Scope Z_scope.

(** The first components of the pairs of [pCall] alone. *)
Lemma key_alike : compareAlike pairGt pMem (fun x y => y <? x) (fun i => fst (pMem i)) 60 /\ (forall i, 0 <= i < 60 -> pairGt (pMem i) (pMem i) = false).
Proof. split; [intros i j _ _; reflexivity|]. intros i _. unfold pairGt. apply Z.ltb_irrefl. Qed.

Lemma key_run : exists tr s, traced pCall 3 tr s /\ returned s tt /\ (1 <= length (thr s))%nat.
Proof.
  destruct ex_lsw_run as (k & s & H & R & L & _). apply reach_traced in H. destruct H as (tr & _ & H). exists tr, s. auto.
Qed.

(** A comparison that makes no sense for [None], which does not occur. *)
Definition someLt (x y : option Z) : bool := match x, y with Some a, Some b => a <? b | _, _ => true end.
Definition someMem (i : Z) : option Z := Some ((i * 37) mod 23).
Definition someCall : call (option Z) := lswCall plat64 tiny someLt 70 60 someMem.

Lemma some_among : weakAmong someLt (contents someMem (Slice 0 60)) /\ ~ irreflexive someLt.
Proof.
  split; [|intro H; specialize (H None); discriminate].
  assert (S : forall x, In x (contents someMem (Slice 0 60)) -> exists a, x = Some a).
  { intros x H. unfold contents in H. apply in_map_iff in H. destruct H as (a & <- & _). eexists. reflexivity. }
  split.
  - intros x y Hx Hy. destruct (S x Hx) as (a & ->), (S y Hy) as (b & ->). cbn. rewrite Z.ltb_lt, Z.ltb_ge. lia.
  - intros x y z Hx Hy Hz. destruct (S x Hx) as (a & ->), (S y Hy) as (b & ->), (S z Hz) as (c & ->). cbn. rewrite !Z.ltb_ge. lia.
Qed.

Lemma some_run : exists k st, reach someCall 3 k st /\ returned st tt /\ (1 <= length (thr st))%nat /\
  firstn 6 (contents (mem (sh st)) (Slice 0 60)) = [Some 0; Some 0; Some 0; Some 1; Some 1; Some 1].
Proof.
  destruct (rotate_reach someCall 3 3 (Z.to_nat 30000) 0 ltac:(lia)) as [k H].
  eexists k, _; split; [exact H|]. split; [apply isRet_returned; vm_compute; reflexivity|].
  split; [apply Nat.leb_le; vm_compute; reflexivity|]. vm_compute; reflexivity.
Qed.

(** 50 strings and 50 byte slices with the same contents. *)
Lemma text_alike : forall i, cellsOf sSlice i -> looksAlike TS TB (sMem i) (bMem i).
Proof.
  intros i Hi. assert (A : forallb (fun k => if list_eq_dec Z.eq_dec (sbytes (sMem (Z.of_nat k))) (bbytes (bMem (Z.of_nat k))) then true else false) (seq 0 50) = true)
    by (vm_compute; reflexivity).
  rewrite forallb_forall in A. unfold cellsOf, sSlice in Hi. cbn [off len] in Hi. specialize (A (Z.to_nat i)). rewrite Z2Nat.id in A by lia.
  destruct (list_eq_dec Z.eq_dec (sbytes (sMem i)) (bbytes (bMem i))) as [E|E]; [exact E|].
  assert (false = true) by (apply A; apply in_seq; lia). discriminate.
Qed.

Lemma text_run : exists tr s, traced sCall 3 tr s /\ returned s tt /\ (1 <= length (thr s))%nat.
Proof.
  destruct ex_s_run as (k & s & H & R & L & _). apply reach_traced in H. destruct H as (tr & _ & H). exists tr, s. auto.
Qed.
