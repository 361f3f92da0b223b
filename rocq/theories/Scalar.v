(** * Scalar functions of sorty.go: machine words, sampling, Search *)

From Coq Require Import List ZArith Lia Bool.
From Verif Require Import Lang.
Import ListNotations.
Open Scope Z_scope.

(** The word size of the platform, as a quarter of the range of Go's uint: 2^30 or 2^62 on
    32- and 64-bit platforms.  An int lies between -2*wq and 2*wq-1. *)
Class word := wq : Z.

(** Wrap-around of Go's uint, int and uint32. *)
Definition uw {Wd : word} (x : Z) : Z := x mod (4 * wq).
Definition iw {Wd : word} (x : Z) : Z := (x + 2 * wq) mod (4 * wq) - 2 * wq.
Definition u32 (x : Z) : Z := x mod 2 ^ 32.

(** sorty.go:94-99, const nsShort, nsLong, nsConc. *)
Definition nsShort : Z := 4.
Definition nsLong : Z := 6.
Definition nsConc : Z := 8.

(** sorty.go:101-116, func minMaxSample.  uint arithmetic with wrap-around; the three
    named results are returned as a triple.  Division by n = 0 (a Go panic) is not
    modelled: every caller passes a constant n >= 3. *)
Definition minMaxSample {Wd : word} (slen n : Z) : Z * Z * Z :=
  let step := slen / n in
  let n := uw (n - 1) in
  let span := uw (n * step) in
  let tail := uw (slen - span) in
  let '(step, span, tail) :=
    if (n <? tail) && (Z.shiftr (uw (step + 1)) 1 <? Z.shiftr tail 1)
    then (uw (step + 1), uw (span + n), uw (tail - n))
    else (step, span, tail) in
  let first := Z.shiftr tail 1 in
  let last := uw (first + span) in
  (first, step, last).

(** sorty.go:118-119, tables firstFour (^uint32(0) = 2^32-1) and stepFour. *)
Definition firstFour : list Z := [0; 0; 2 ^ 32 - 1; 0; 0; 1; 1; 0].
Definition stepFour : list Z := [0; 0; 1; 1; 0; 0; 0; 1].

(** sorty.go:121-127, func minMaxFour (uint32 arithmetic). *)
Definition minMaxFour (slen : Z) : Z * Z :=
  let md := Z.land slen 7 in
  (u32 (Z.shiftr slen 3 + nth (Z.to_nat md) firstFour 0),
   u32 (Z.shiftr slen 2 + nth (Z.to_nat md) stepFour 0)).

(** sorty.go:65-78, func Search.  The caller's predicate [fn] is the array of its answers:
    calling fn(m) is reading cell [m] ([true] = 1).  [meanI] is sixb.MeanI (not part of
    /repo). *)
Definition search {P} (meanI : Z -> Z -> Z) (n : Z) : cmd P bool Z :=
  Loop (0, n) (fun '(l, h) =>
    if l <? h then
      let m := meanI l h in
      Read m (fun b => if b : bool then goto (l, m) else goto (m + 1, h))
    else done l)%cmd.
