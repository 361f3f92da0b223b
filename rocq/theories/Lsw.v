(** * Model of sortyLsw.go: Sort and IsSorted over a caller's Lesswap function

    The caller's collection is the cells [0 .. cap-1] of the machine, [cap >= n] its real
    size.  Its Lesswap function is the one documented in sortyLsw.go:15-24 and 320-331,
    for a comparator [lt] on elements: every element access is a separate step of the
    machine, and an index outside the collection panics (Go's bounds check in the
    caller's function).  Go's [int] values are unbounded integers here except where an
    addition could leave the range of int: [iw] there.  Conversions int(f), int(s),
    int(l) of the results of minMaxSample are the identity (they are below the length). *)

From Coq Require Import List ZArith Lia Bool.
From Verif Require Import Lang Scalar Typed.
Import ListNotations.
Open Scope Z_scope.
Open Scope cmd_scope.

(** Procedures that are called recursively or started as goroutines; ranges are
    [lo..hi], both ends included. *)
Inductive lproc :=
| LShort (lo hi : Z)            (* short(lsw, lo, hi) *)
| LLong (lo hi : Z) (sv : bool) (* long(lsw, lo, hi, sv); sv = false: nil *)
| LGLong (lo hi : Z)            (* go gLong(lsw, lo, hi, &sv) *)
| LGPart (l pv h : Z).          (* go gPartOne(lsw, l, pv, h, sv.done) *)

Section Code.
Context {Wd : word}.
Context {T : Type}.
Variable lt : T -> T -> bool.       (* the caller's strict comparator *)
Variable cap : Z.                   (* size of the caller's collection *)
Variable tn : tuning.
Variable meanI : Z -> Z -> Z.       (* sixb.MeanI on indices *)

Let C := cmd lproc T.
Let maxIns := maxLenInsFC tn.
Let maxRec := maxLenRecFC tn.

(** slc[i] in the caller's function, with Go's bounds check. *)
Definition cget (i : Z) : C T :=
  if (0 <=? i) && (i <? cap) then Read i Ret else Panic.
Definition cset (i : Z) (x : T) : C unit :=
  if (0 <=? i) && (i <? cap) then Write i x (Ret tt) else Panic.

(** sortyLsw.go:15-24 and 321-329, the Lesswap contract:
    if slc[i] < slc[k] { if r != s { slc[r], slc[s] = slc[s], slc[r] }; return true }
    return false.
    Stricter than the documented function, it also panics when [r] or [s] is not an index
    of the collection and no exchange is needed: that no call panics then says that all
    four arguments are always indices. *)
Definition lsw (i k r s : Z) : C bool :=
  if negb ((0 <=? r) && (r <? cap) && (0 <=? s) && (s <? cap)) then Panic else
  x <- cget i ;; y <- cget k ;;
  if lt x y then
    if r =? s then Ret true
    else a <- cget s ;; b <- cget r ;; cset r a ;;; cset s b ;;; Ret true
  else Ret false.

(** sortyLsw.go:26-37, func IsSorted. *)
Definition lswIsSorted (n : Z) : C Z :=
  Loop (iw (n - 1)) (fun i =>
    if 0 <? i then
      b <- lsw i (i - 1) i i ;; if b : bool then done i else goto (i - 1)
    else done 0).

(** sortyLsw.go:39-51, func insertion; also inlined at 240-249 in short. *)
Definition lswInsertion (lo hi : Z) : C unit :=
  Loop (lo + 1) (fun h =>
    if h <=? hi then
      Loop h (fun l =>
        b <- lsw l (l - 1) l (l - 1) ;;
        if b : bool then
          let l := l - 1 in if l <=? lo then done tt else goto l
        else done tt) ;;;
      goto (iw (h + 1))
    else done tt).

(** sortyLsw.go:66-74, insertion sort of the samples, part of func pivot. *)
Definition lswSamples (first step last : Z) : C unit :=
  Loop (first + step) (fun h =>
    if h <=? last then
      Loop h (fun l =>
        b <- lsw l (l - step) l (l - step) ;;
        if b : bool then
          let l := l - step in if l <=? first then done tt else goto l
        else done tt) ;;;
      goto (iw (h + step))
    else done tt).

(** sortyLsw.go:53-81, func pivot. *)
Definition lswPivot (lo hi n : Z) : C Z :=
  let '(f, s, l) := minMaxSample (uw (hi + 1 - lo)) n in
  let first := lo + f in
  let step := s in
  let last := lo + l in
  lswSamples first step last ;;;
  lsw first lo first lo ;;;
  lsw hi last hi last ;;;
  Ret (meanI first last).

(** sortyLsw.go:83-119, func partOne.  LStart: head of the outer loop; LScan: first inner
    loop; LSecond: second inner loop; LNext: post statement of the outer loop; LLast:
    after the loop. *)
Definition lswPartOne (l pv h : Z) : C Z :=
  Loop (LStart l h) (fun st =>
    match st with
    | LStart l h =>
        if l <? h then
          b <- lsw h pv h h ;;
          if b : bool then goto (LScan l h)
          else b <- lsw pv l l l ;;
               if b : bool then goto (LSecond l h) else goto (LNext l h)
        else goto (LLast l h)
    | LScan l h =>
        b <- lsw pv l h l ;;
        if b : bool then goto (LNext l h)
        else let l := l + 1 in if h <=? l then done (l + 1) else goto (LScan l h)
    | LSecond l h =>
        let h := h - 1 in
        if h <=? l then done l
        else b <- lsw h pv h l ;;
             if b : bool then goto (LNext l h) else goto (LSecond l h)
    | LNext l h => goto (LStart (l + 1) (h - 1))
    | LLast l h =>
        if (l =? h) && negb (h =? pv) then
          b <- lsw h pv h h ;; if b : bool then done (l + 1) else done l
        else done l
    | LSwap l h => done l                                     (* no such label: unused *)
    end).

(** sortyLsw.go:121-160, func partTwo.  LStart: head of the outer loop; LScan, LSecond:
    inner loops; LNext: after the inner loops. *)
Definition lswPartTwo (lo l pv h hi : Z) : C Z :=
  Loop (LStart l h) (fun st =>
    match st with
    | LStart l h =>
        b <- lsw h pv h h ;;
        if b : bool then goto (LScan l h)
        else b <- lsw pv l l l ;;
             if b : bool then goto (LSecond l h) else goto (LNext l h)
    | LScan l h =>
        b <- lsw pv l h l ;;
        if b : bool then goto (LNext l h)
        else let l := l - 1 in if l <? lo then done h else goto (LScan l h)
    | LSecond l h =>
        let h := h + 1 in
        if hi <? h then done l
        else b <- lsw h pv h l ;;
             if b : bool then goto (LNext l h) else goto (LSecond l h)
    | LNext l h =>
        let l := l - 1 in let h := h + 1 in
        if l <? lo then done h
        else if hi <? h then done l
        else goto (LStart l h)
    | LSwap l h | LLast l h => done l                         (* no such label: unused *)
    end).

(** sortyLsw.go:162-167, func gPartOne. *)
Definition lswGPartOne (l pv h : Z) : C unit :=
  k <- lswPartOne l pv h ;; Send k (Ret tt).

(** sortyLsw.go:186-194 and 195-204, the gap-closing loops of partCon. *)
Definition lswGapLow (lo r k pv : Z) : C Z :=
  Loop (r, k, pv) (fun '(r, k, pv) =>
    if lo <=? r then
      b <- lsw pv r (k - 1) r ;;
      if b : bool then
        let k := k - 1 in goto (r - 1, k, if k =? pv then r else pv)
      else goto (r - 1, k, pv)
    else done k).

Definition lswGapHigh (hi r k pv : Z) : C Z :=
  Loop (r, k, pv) (fun '(r, k, pv) =>
    if r <=? hi then
      b <- lsw r pv r k ;;
      if b : bool then
        let pv := if k =? pv then r else pv in goto (r + 1, k + 1, pv)
      else goto (r + 1, k, pv)
    else done k).

(** sortyLsw.go:169-206, func partCon. *)
Definition lswPartCon (lo hi : Z) : C Z :=
  pv <- lswPivot lo hi (nsConc - 1) ;;
  let lo := lo + 1 in
  let hi := hi - 1 in
  let l := meanI lo pv in
  let h := meanI pv hi in
  Fork (LGPart (l + 1) pv (h - 1)) (
  r <- lswPartTwo lo l pv h hi ;;
  Recv (fun k =>
  if r <? pv then lswGapLow lo r k pv else lswGapHigh hi r k pv)).

(** sortyLsw.go:226-234 (and 276-284, 359-367): what follows "l := partOne(...)".  Result
    (l, h, lo, hi, n, no): the shorter range [l..h] and the longer range [lo..hi]. *)
Definition lswSplit (lo hi l : Z) : Z * Z * Z * Z * Z * Z :=
  let h := l - 1 in
  let no := h - lo in
  let n := hi - l in
  if no <? n then (lo, h, l, hi, no, n)
  else (l, hi, lo, h, n, no).

(** sortyLsw.go:211-223, pivot of short: median of three samples, one sample to each end;
    returns the pivot position. *)
Definition lswPivotShort (lo hi : Z) : C Z :=
  let '(fr, step, _) := minMaxSample (uw (hi + 1 - lo)) 3 in
  let first := lo + fr in
  let pv := first + step in
  let last := pv + step in
  lsw pv first pv first ;;;
  b <- lsw last pv last pv ;;
  (if b : bool then lsw pv first pv first ;;; Ret tt else Ret tt) ;;;
  lsw first lo first lo ;;;
  lsw hi last hi last ;;;
  Ret pv.

(** sortyLsw.go:208-258, func short.  Loop state: [inl (lo,hi)] = label start,
    [inr (lo,hi,l,h,no)] = label isort. *)
Definition lswShort (lo hi : Z) : C unit :=
  Loop (inl (lo, hi) : Z * Z + Z * Z * Z * Z * Z) (fun st =>
    match st with
    | inl (lo, hi) =>
        pv <- lswPivotShort lo hi ;;
        l <- lswPartOne (lo + 1) pv (hi - 1) ;;
        let '(l, h, lo, hi, n, no) := lswSplit lo hi l in
        if maxIns <=? n then
          Call (LShort l h) (goto (inl (lo, hi)))
        else goto (inr (lo, hi, l, h, no))
    | inr (lo, hi, l, h, no) =>
        lswInsertion l h ;;;
        if maxIns <=? no then goto (inl (lo, hi))
        else if negb (lo =? l) then goto (inr (lo, hi, lo, hi, no))
        else done tt
    end).

(** sorty.go:86-92, func gorFull. *)
Definition lswGorFull : C bool :=
  LoadMax (fun mg => LoadGor (fun ng => Ret (mg <=? ng))).

(** sortyLsw.go:260-269, func gLong. *)
Definition lswGLong (lo hi : Z) : C unit :=
  Call (LLong lo hi true) (
  AddGor (2 ^ 64 - 1) (fun n => if n =? 0 then Send 0 (Ret tt) else Ret tt)).

(** sortyLsw.go:271-314, func long. *)
Definition lswLong (lo hi : Z) (sv : bool) : C unit :=
  Loop (lo, hi) (fun '(lo, hi) =>
    pv <- lswPivot lo hi (nsLong - 1) ;;
    l <- lswPartOne (lo + 1) pv (hi - 1) ;;
    let '(l, h, lo, hi, n, no) := lswSplit lo hi l in
    if n <? maxRec then
      (if maxIns <=? n then Call (LShort l h) (Ret tt) else lswInsertion l h) ;;;
      if maxRec <=? no then goto (lo, hi)
      else Call (LShort lo hi) (done tt)
    else
      full <- (if sv then lswGorFull else Ret true) ;;
      if full : bool then
        Call (LLong l h sv) (goto (lo, hi))
      else
        AddGor 1 (fun _ => Fork (LGLong lo hi) (goto (l, h)))).

(** Procedure table. *)
Definition lswBody (p : lproc) : C unit :=
  match p with
  | LShort lo hi => lswShort lo hi
  | LLong lo hi sv => lswLong lo hi sv
  | LGLong lo hi => lswGLong lo hi
  | LGPart l pv h => lswGPartOne l pv h
  end.

(** sortyLsw.go:340, 381: the expression 2*MaxLenRecFC, an int (wraps around). *)
Definition lswConc : Z := iw (2 * maxRec).

(** sortyLsw.go:352-391, the concurrent part of Sort; n is the high index. *)
Definition lswSortConc (n : Z) : C unit :=
  MakeSv (
  '(lo, hi) <- Loop (0, n) (fun '(lo, hi) =>
    l <- lswPartCon lo hi ;;
    let '(l, h, lo, hi, n, no) := lswSplit lo hi l in
    (if maxRec <=? n then AddGor 1 (fun _ => Fork (LGLong l h) (Ret tt))
     else if maxIns <=? n then Call (LShort l h) (Ret tt)
     else lswInsertion l h) ;;;
    if no <=? lswConc then done (lo, hi)
    else full <- lswGorFull ;; if full : bool then done (lo, hi) else goto (lo, hi)) ;;
  Call (LLong lo hi true) (
  AddGor (2 ^ 64 - 1) (fun n =>
    if n =? 0 then Ret tt else Recv (fun _ => Ret tt)))).

(** sortyLsw.go:337-392, func Sort. *)
Definition lswSort (n : Z) : C unit :=
  let n := iw (n - 1) in
  single <- (if n <=? lswConc then Ret true
             else LoadMax (fun mg => Ret (mg <=? 1))) ;;
  if single : bool then
    if maxRec <=? n then Call (LLong 0 n false) (Ret tt)
    else if maxIns <=? n then Call (LShort 0 n) (Ret tt)
    else if 0 <? n then lswInsertion 0 n
    else Ret tt
  else lswSortConc n.

End Code.
