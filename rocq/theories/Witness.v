(** * Concrete parameters, inputs and executions

    Used for the examples beside the property theorems and for the refutations. *)

From Coq Require Import List ZArith Lia Bool Permutation Sorted.
From Verif Require Import Lang Scalar ScalarFacts Typed Kinds Spec Lsw Calls.
Import ListNotations.
Open Scope Z_scope.

(** ** Means *)

(** The usual overflow-free average (x & y) + ((x ^ y) >> 1). *)
Definition bitMean (x y : Z) : Z := Z.land x y + Z.shiftr (Z.lxor x y) 1.

Lemma lxor_land x y : Z.lxor x y + 2 * Z.land x y = x + y.
Proof.
  assert (A : Z.land (Z.lxor x y) (Z.land x y) = 0).
  { apply Z.bits_inj'. intros n Hn. rewrite !Z.land_spec, Z.lxor_spec, Z.bits_0.
    destruct (Z.testbit x n), (Z.testbit y n); reflexivity. }
  assert (B : Z.lor x y = Z.lxor x y + Z.land x y).
  { rewrite Z.add_nocarry_lxor by exact A. apply Z.bits_inj'. intros n Hn.
    rewrite Z.lor_spec, !Z.lxor_spec, Z.land_spec. destruct (Z.testbit x n), (Z.testbit y n); reflexivity. }
  assert (Cx : x = Z.land x (Z.lnot y) + Z.land x y).
  { rewrite Z.add_nocarry_lxor.
    - apply Z.bits_inj'. intros n Hn. rewrite Z.lxor_spec, !Z.land_spec, Z.lnot_spec by exact Hn.
      destruct (Z.testbit x n), (Z.testbit y n); reflexivity.
    - apply Z.bits_inj'. intros n Hn. rewrite !Z.land_spec, Z.lnot_spec, Z.bits_0 by exact Hn.
      destruct (Z.testbit x n), (Z.testbit y n); reflexivity. }
  assert (D : Z.lor x y = Z.land x (Z.lnot y) + y).
  { rewrite Z.add_nocarry_lxor.
    - apply Z.bits_inj'. intros n Hn. rewrite Z.lor_spec, Z.lxor_spec, Z.land_spec, Z.lnot_spec by exact Hn.
      destruct (Z.testbit x n), (Z.testbit y n); reflexivity.
    - apply Z.bits_inj'. intros n Hn. rewrite !Z.land_spec, Z.lnot_spec, Z.bits_0 by exact Hn.
      destruct (Z.testbit x n), (Z.testbit y n); reflexivity. }
  lia.
Qed.

Lemma bitMean_floor x y : bitMean x y = (x + y) / 2.
Proof.
  unfold bitMean. rewrite shiftr1. assert (H := lxor_land x y).
  replace (x + y) with (Z.lxor x y + Z.land x y * 2) by lia. rewrite Z.div_add by lia. lia.
Qed.

(** 64- and 32-bit platforms. *)
Definition plat64 : plat := Plat 8 bitMean bitMean bitMean bitMean bitMean.
Definition plat32 : plat := Plat 4 bitMean bitMean bitMean bitMean bitMean.

Lemma bitMean_between lo hi : between lo hi bitMean.
Proof.
  intros x y _ _. rewrite bitMean_floor. destruct (half (x + y)) as (h & -> & Hh). lia.
Qed.

Theorem plat_ok b : b = 4 \/ b = 8 -> platOk (Plat b bitMean bitMean bitMean bitMean bitMean).
Proof.
  intro Hb. unfold platOk. cbn [wb mI4 mI8 mU4 mU8 mI]. split; [exact Hb|].
  do 5 (split; [apply bitMean_between|]). split; intros x y Hx Hxy Hy.
  - rewrite bitMean_floor. destruct (half (x + y)) as (h & -> & Hh). lia.
  - intro He. rewrite bitMean_floor. apply Z.even_spec in He. destruct He as [m ->].
    replace (2 * m) with (m * 2) by lia. rewrite Z.div_mul by lia. lia.
Qed.

Theorem plat64_ok : platOk plat64.
Proof. apply plat_ok. auto. Qed.

Theorem plat32_ok : platOk plat32.
Proof. apply plat_ok. auto. Qed.


(** ** Tuning *)

(** Small parameters accepted by init, so that short inputs are sorted concurrently. *)
Definition tiny : tuning := Tuning 10 9 22 21.

Theorem tiny_ok : tuningOk plat64 tiny.
Proof. repeat split. Qed.
Theorem tiny_ok32 : tuningOk plat32 tiny.
Proof. repeat split. Qed.

Theorem shipped_ok : tuningOk plat64 shipped.
Proof. repeat split. Qed.

Theorem shipped_every pl : platOk pl -> tuningOk pl shipped /\ initOk pl shippedMaxGor shipped = true.
Proof.
  intros ([E|E] & _); unfold tuningOk, initOk, pword, intSize; rewrite E; repeat split.
Qed.

(** ** A scheduler *)

Section Drive.
Context {P T R : Type}.
Variable body : P -> cmd P T unit.

Fixpoint firstOf (chs : list choice) (s : st P T R) : option (st P T R) :=
  match chs with
  | [] => None
  | ch :: chs' => match run1 body ch s with Some s' => Some s' | None => firstOf chs' s end
  end.

Definition allChoices (s : st P T R) : list choice :=
  let n := length (thr s) in
  CMain :: map CThr (seq 0 n) ++ map CToMain (seq 0 n).

(** Up to [fuel] steps of the caller, or of the first goroutine that can move. *)
Fixpoint drive (fuel : nat) (s : st P T R) : st P T R :=
  match fuel with
  | O => s
  | S f => match firstOf (allChoices s) s with Some s' => drive f s' | None => s end
  end.

(** Alternate: the [n]-th choice first. *)
Fixpoint rotate (fuel n : nat) (s : st P T R) : st P T R :=
  match fuel with
  | O => s
  | S f =>
      let chs := allChoices s in
      let m := Nat.modulo n (length chs) in
      match firstOf (skipn m chs ++ firstn m chs) s with Some s' => rotate f (S n) s' | None => s end
  end.

Lemma firstOf_exec M Rg chs s s' : firstOf chs s = Some s' -> exec body M Rg 1 s s'.
Proof.
  induction chs as [|ch chs IH]; simpl; [discriminate|]. destruct (run1 body ch s) as [s1|] eqn:E; [|auto].
  intro H; inversion H; subst. apply (exec_prog body M Rg 0 s s s'); [constructor|]. eapply run1_pstep; exact E.
Qed.

Lemma drive_exec M Rg f s : exists k, exec body M Rg k s (drive f s).
Proof.
  revert s. induction f as [|f IH]; intro s; cbn [drive]; [exists O; constructor|].
  destruct (firstOf (allChoices s) s) as [s1|] eqn:E; [|exists O; constructor].
  destruct (IH s1) as [k Hk]. exists (k + 1)%nat. exact (exec_trans body M Rg 1 s s1 k _ (firstOf_exec M Rg _ _ _ E) Hk).
Qed.

Lemma rotate_exec M Rg f n s : exists k, exec body M Rg k s (rotate f n s).
Proof.
  revert n s. induction f as [|f IH]; intros n s; cbn [rotate]; [exists O; constructor|]. cbv zeta.
  match goal with |- context [match ?X with Some _ => _ | None => _ end] => destruct X as [s1|] eqn:E end;
    [|exists O; constructor].
  destruct (IH (S n) s1) as [k Hk]. exists (k + 1)%nat. exact (exec_trans body M Rg 1 s s1 k _ (firstOf_exec M Rg _ _ _ E) Hk).
Qed.

End Drive.

Lemma drive_reach {T} (C : call T) M mg0 f : 0 <= mg0 <= M ->
  exists k, reach C M k (drive (cProcs C) f (start (cProg C) (cInit C) mg0)).
Proof.
  intro H. destruct (drive_exec (cProcs C) M (cCells C) f (start (cProg C) (cInit C) mg0)) as [k Hk].
  exists k, mg0. auto.
Qed.

Lemma rotate_reach {T} (C : call T) M mg0 f n : 0 <= mg0 <= M ->
  exists k, reach C M k (rotate (cProcs C) f n (start (cProg C) (cInit C) mg0)).
Proof.
  intro H. destruct (rotate_exec (cProcs C) M (cCells C) f n (start (cProg C) (cInit C) mg0)) as [k Hk].
  exists k, mg0. auto.
Qed.

(** Memory with a given list from cell [o] on. *)
Definition memOf {T} (d : T) (o : Z) (l : list T) (i : Z) : T :=
  if i <? o then d else nth (Z.to_nat (i - o)) l d.

Definition isRet {P T R} (s : st P T R) : bool := match view (main s) with HRet _ => true | _ => false end.

Lemma isRet_returned {P T} (s : st P T unit) : isRet s = true -> returned s tt.
Proof. unfold isRet, returned. destruct (view (main s)) as [[]| | | | | | | | | | | |]; discriminate || reflexivity. Qed.

(** ** Executions used beside the theorems *)

(** 60 numbers in a jumbled order, as int64 patterns (some negative). *)
Definition jumble (n : Z) : list Z :=
  map (fun i => (Z.of_nat i * 37 + 11) mod 61 - 30) (seq 0 (Z.to_nat n)).
Definition pat64 (z : Z) : Z := z mod 2 ^ 64.

Definition exSlice : slice := Slice 5 60.
Definition exMem : Z -> Z := memOf 7 5 (map pat64 (jumble 60)).
Definition exCall : call Z := typedCall plat64 tiny 1 TI8 exSlice exMem.

