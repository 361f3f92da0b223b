(** * Examples for [TornTop.v] *)

From Coq Require Import List ZArith Lia Bool Arith Permutation.
From Verif Require Import Lang Scalar Typed Kinds Spec Calls Witness Examples Guarantee TopFacts Torn TornFacts TornTop Bytes BytesFacts BytesEx.
Import ListNotations.
Open Scope Z_scope.

(** An int64 on a 32-bit platform: two words. *)
Definition half (x : Z) (q : nat) : Z := match q with O => x mod 2 ^ 32 | _ => x / 2 ^ 32 end.
Definition unhalf (f : nat -> Z) : Z := f 0%nat + f 1%nat * 2 ^ 32.

Lemma half_ok : decomposes 2 half unhalf exCall32.
Proof.
  intros y f _ Hf. unfold unhalf. rewrite !Hf by lia. cbn [half]. assert (D := Z.div_mod (cInit exCall32 y) (2 ^ 32) ltac:(lia)). lia.
Qed.

Definition exMid32 := rotate (cProcs exCall32) (Z.to_nat 645) 0 (start (cProg exCall32) (cInit exCall32) 3).

(** [c] is about to write [v] to [x]. *)
Definition writes {P A} (c : cmd P Z A) (x v : Z) : bool := match view c with HWrite y u _ => (y =? x) && (u =? v) | _ => false end.

Lemma writes_view {P A} (c : cmd P Z A) x v : writes c x v = true -> exists k, view c = HWrite x v k.
Proof.
  unfold writes. destruct (view c); intro H; try discriminate. apply andb_true_iff in H. destruct H as [A1 A2].
  apply Z.eqb_eq in A1. apply Z.eqb_eq in A2. subst. eauto.
Qed.

Lemma exMid32_main : writes (main exMid32) 34 (2 ^ 64 - 1) = true.
Proof. vm_compute. reflexivity. Qed.

Lemma exMid32_thr : match thr exMid32 with [_; c] => writes c 18 18446744073709551595 | _ => false end = true.
Proof. vm_compute. reflexivity. Qed.

Lemma exMid32_mem : mem (sh exMid32) 34 = 3.
Proof. vm_compute. reflexivity. Qed.

Lemma exCall32_ok : sortCall plat32 tiny exCall32.
Proof. exact (call_typed plat32 tiny TI8 1 exSlice exMem ex_int_typed32 (or_introl eq_refl)). Qed.

Lemma exMid32_reach : exists k, reach exCall32 3 k exMid32.
Proof. exact (rotate_reach exCall32 3 3 (Z.to_nat 645) 0 (conj (Zle_bool_imp_le 0 3 eq_refl) (Z.le_refl 3))). Qed.

Lemma torn_of k st : reach exCall32 3 k st -> writes (main st) 34 (2 ^ 64 - 1) = true ->
  match thr st with [_; c] => writes c 18 18446744073709551595 | _ => false end = true -> mem (sh st) 34 = 3 ->
  exists n s, treach 2 half unhalf exCall32 3 n s /\
    (exists p, nth_error (claims s) 0 = Some (Some (34, true), p) /\ p 0%nat = None /\ p 1%nat <> None) /\
    (exists p, nth_error (claims s) 2 = Some (Some (18, true), p) /\ p 0%nat <> None /\ p 1%nat = None) /\
    unhalf (tmem s 34) = 2 ^ 64 - 4294967293.
Proof.
  intros H W1 E EM. destruct (writes_view _ _ _ W1) as [k1 V1].
  destruct (thr st) as [|c1 [|c2 [|]]] eqn:Et; try discriminate E.
  destruct (writes_view _ _ _ E) as [k2 V2].
  destruct (parts_torn plat32 tiny 2 half unhalf exCall32 3 k st (fun x => half (cInit exCall32 x)) [c1] c2 [] _ _ _ _ _ _ 1%nat 0%nat
    plat32_ok tiny_ok32 exCall32_ok half_ok H (fun _ _ _ _ => eq_refl) Et V1 V2 ltac:(lia) ltac:(lia) ltac:(lia)) as (n & s & R & (p1 & N1 & P1 & Q1) & (p2 & N2 & P2 & Q2) & M1 & M2 & _).
  exists n, s. split; [exact R|]. split; [exists p1; split; [exact N1|]; split; [apply Q1; lia|rewrite P1; discriminate]|].
  split; [exists p2; split; [exact N2|]; split; [rewrite P2; discriminate|apply Q2; lia]|].
  unfold unhalf. rewrite M1, (M2 0%nat) by lia. rewrite EM. reflexivity.
Qed.

(** -1 is being written over 3, and at the moment there is -4294967293, which is no element. *)
Lemma ex_torn : (exists n s, treach 2 half unhalf exCall32 3 n s /\
    (exists p, nth_error (claims s) 0 = Some (Some (34, true), p) /\ p 0%nat = None /\ p 1%nat <> None) /\
    (exists p, nth_error (claims s) 2 = Some (Some (18, true), p) /\ p 0%nat <> None /\ p 1%nat = None) /\
    unhalf (tmem s 34) = 2 ^ 64 - 4294967293) /\
  ~ In (2 ^ 64 - 4294967293) (contents (cInit exCall32) exSlice).
Proof.
  split.
  - destruct exMid32_reach as [k H]. exact (torn_of k exMid32 H exMid32_main exMid32_thr exMid32_mem).
  - intro HI. assert (X : forallb (fun z => negb (z =? 2 ^ 64 - 4294967293)) (contents (cInit exCall32) exSlice) = true) by (vm_compute; reflexivity).
    rewrite forallb_forall in X. specialize (X _ HI). rewrite Z.eqb_refl in X. discriminate.
Qed.

(** Three strings, byte by byte. *)
Definition exStr : call (elem TS) := jcall plat64 false tiny (exJobs 1) exBytes.
Definition exStrEnd := rotate (cProcs exStr) (Z.to_nat 300) 0 (start (cProg exStr) (cInit exStr) 3).

Lemma exStr_mem : contents (viewAs plat64 false (exJobs 1) exBytes) (Slice 0 3) = [StrH 96 [98; 99]; StrH 96 [98]; StrH 98 [99; 97]].
Proof. vm_compute. reflexivity. Qed.

Lemma exStr_ret : isRet exStrEnd = true.
Proof. vm_compute. reflexivity. Qed.

Lemma exStr_typed : typedSlice plat64 TS (viewAs plat64 false (exJobs 1) exBytes) (Slice 0 3).
Proof. split; [split; [discriminate|reflexivity]|].
  change (Forall (wellTyped plat64 TS) (contents (viewAs plat64 false (exJobs 1) exBytes) (Slice 0 3))). rewrite exStr_mem. repeat constructor. Qed.

Lemma exStr_reach : exists k, reach exStr 3 k exStrEnd.
Proof. exact (rotate_reach exStr 3 3 (Z.to_nat 300) 0 (conj (Zle_bool_imp_le 0 3 eq_refl) (Z.le_refl 3))). Qed.

Lemma exStr_call : sortCall plat64 tiny exStr.
Proof. apply (call_typed plat64 tiny TS 1 (Slice 0 3)); [exact exStr_typed|left; reflexivity]. Qed.

Lemma bytewise_of k st : reach exStr 3 k st -> returned st tt ->
  exists n s, breach plat64 false tiny (exJobs 1) exBytes 3 n s /\ treturned s tt.
Proof.
  intros H Hr.
  destruct (parts_all plat64 tiny (Z.to_nat (esize plat64 TS)) (bpart plat64 false (exJobs 1)) (bjoin plat64 false (exJobs 1) exBytes) exStr 3
    plat64_ok tiny_ok exStr_call (bytes_decompose plat64 false tiny (exJobs 1) exBytes plat64_ok exBytes_ok) k st
    (fun x q => exBytes (40 + x * 16 + Z.of_nat q)) H) as (n & F' & (F & mg0 & Hm & HF & R) & _).
  - intros x q Hx Hq. symmetry. exact (byte_peek plat64 false plat64_ok TS exBytes (40 + x * 16) (Z.of_nat q) exBytes_ok (conj (Zle_0_nat q) (proj1 (Nat2Z.inj_lt _ _) Hq))).
  - exists n, (inParts st F'). split; [|exact Hr].
    exists F, mg0. split; [exact Hm|]. split; [|exact R].
    intros x o Hx Ho. rewrite HF; [|exact Hx|apply Z2Nat.inj_lt; [lia|discriminate|exact (proj2 Ho)]].
    change (byteOf plat64 false TS (peek plat64 false TS exBytes (40 + x * 16)) (Z.of_nat (Z.to_nat o)) = exBytes (40 + x * 16 + o)).
    rewrite Z2Nat.id by lia. exact (byte_peek plat64 false plat64_ok TS exBytes (40 + x * 16) o exBytes_ok Ho).
Qed.

Lemma ex_bytewise : exists n s, breach plat64 false tiny (exJobs 1) exBytes 3 n s /\ treturned s tt.
Proof. destruct exStr_reach as [k H]. exact (bytewise_of k exStrEnd H (isRet_returned _ exStr_ret)). Qed.
