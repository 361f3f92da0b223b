(** * A slow call *)

From Coq Require Import List ZArith Lia Bool.
From Verif Require Import Lang SeqLogic Base Scalar Typed Kinds Spec Calls TypedApi Guarantee TopFacts Witness Refute Examples SlowTop SlowLsw.
Import ListNotations.
Open Scope Z_scope.

Lemma ex_slow : exists m0, sortCall plat64 shipped (typedCall plat64 shipped 0 TS (Slice 5 (10 ^ 6)) m0) /\
  (exists k st, reach (typedCall plat64 shipped 0 TS (Slice 5 (10 ^ 6)) m0) 1 k st /\ returned st tt) /\
  forall k st, reach (typedCall plat64 shipped 0 TS (Slice 5 (10 ^ 6)) m0) 1 k st -> returned st tt -> 10 ^ 11 < Z.of_nat k.
Proof.
  assert (Hs : tuningOk plat64 shipped) by (apply shipped_every; exact plat64_ok).
  destruct (quadratic plat64 shipped 0 TS (Slice 5 (10 ^ 6)) plat64_ok Hs) as (m0 & HC & H).
  - unfold goSlice, intSize. cbn [len wb plat64]. lia.
  - cbn [len shipped maxLenRec]. lia.
  - exists m0. split; [exact HC|]. split.
    + set (C := typedCall _ _ _ _ _ _) in *.
      assert (R0 : reach C 1 0 (start (cProg C) (cInit C) 1)) by (exists 1; split; [lia|constructor]).
      destruct (can_finish plat64 shipped _ C 1 0 _ plat64_ok Hs HC R0) as (j & st & Hx & Hr).
      exists j, st. split; [|exact Hr]. exists 1. split; [lia|exact Hx].
    + intros k st Hr Hret. specialize (H k st Hr Hret). cbn [len shipped maxLenRec] in H. lia.
Qed.

Lemma ex_slow_lsw : exists key : Z -> Z,
  sortCall plat64 shipped (lswCall plat64 shipped (fun x y => key x <? key y) (10 ^ 6) (10 ^ 6) (fun i => i)) /\
  (exists k st, reach (lswCall plat64 shipped (fun x y => key x <? key y) (10 ^ 6) (10 ^ 6) (fun i => i)) 1 k st /\ returned st tt) /\
  forall k st, reach (lswCall plat64 shipped (fun x y => key x <? key y) (10 ^ 6) (10 ^ 6) (fun i => i)) 1 k st -> returned st tt ->
    9 * 10 ^ 10 < Z.of_nat k.
Proof.
  assert (Hs : tuningOk plat64 shipped) by (apply shipped_every; exact plat64_ok).
  destruct (quadratic_lsw plat64 shipped (10 ^ 6) (10 ^ 6) (fun i => i) plat64_ok Hs) as (key & HC & H).
  - lia.
  - unfold intSize. cbn [wb plat64]. lia.
  - cbn [shipped maxLenRecFC]. lia.
  - rewrite contents_seg. cbn [off len]. unfold SeqLogic.seg. rewrite map_id. apply NoDup_zrange.
  - exists key. split; [exact HC|]. split.
    + set (C := lswCall _ _ _ _ _ _) in *.
      assert (R0 : reach C 1 0 (start (cProg C) (cInit C) 1)) by (exists 1; split; [lia|constructor]).
      destruct (can_finish plat64 shipped _ C 1 0 _ plat64_ok Hs HC R0) as (j & st & Hx & Hr).
      exists j, st. split; [|exact Hr]. exists 1. split; [lia|exact Hx].
    + intros k st Hr Hret. specialize (H k st Hr Hret). cbn [shipped maxLenRecFC] in H. lia.
Qed.
