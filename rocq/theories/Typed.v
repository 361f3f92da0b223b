(** * Model of the ten type-specific sorting files

    sortyI4.go sortyI8.go sortyU4.go sortyU8.go sortyF4.go sortyF8.go sortyS.go sortyB.go
    sortyLenS.go sortyLenB.go contain the same functions for ten element types.  They are
    modelled once, parameterised by a record [kind] that lists everything in which the
    ten files differ:
    - [key]  : what is compared: the element itself (I4 I8 U4 U8 F4 F8 S), sixb.BtoS of
               it (B: the bytes as a string), len of it (LenS, LenB);
    - [ltb], [leb] : the Go operators < and <= on keys (independent of each other, so
               that IEEE comparisons with NaN are modelled faithfully; Go's x >= y and
               x > y are written with swapped arguments);
    - [mean] : sixb.MeanI4/I8/U4/U8/MeanI, only used if [even];
    - [even] : pivot selection style: true for I4 I8 U4 U8 LenS LenB (even number of
               samples, mean of the middle two), false for F4 F8 S B (odd number of
               samples, the middle one);
    - [fc]   : true for S and B: they use MaxLenInsFC/MaxLenRecFC instead of
               MaxLenIns/MaxLenRec.
    Citations "X:a-b" below give the lines in sortyI4.go; the other I/U files have the
    same line numbers, LenS/LenB differ by at most one, S/B by at most six, F4/F8 are
    14-15 lines (from sortF on: up to 43 lines) further down; lines are cited explicitly
    where the code differs.

    Simplifications: Go's [int] values are unbounded integers here except where wrap-
    around could matter (they are slice indices and lengths); "ar[:k:k]" etc. are checked
    against the length, not the capacity (stricter than Go). *)

From Coq Require Import List ZArith Lia Bool.
From Verif Require Import Lang Scalar.
Import ListNotations.
Open Scope Z_scope.
Open Scope cmd_scope.

Record kind (T K : Type) := Kind {
  key : T -> K;
  ltb : K -> K -> bool;
  leb : K -> K -> bool;
  mean : K -> K -> K;
  even : bool;
  fc : bool
}.
Arguments Kind {T K}. Arguments key {T K}. Arguments ltb {T K}. Arguments leb {T K}.
Arguments mean {T K}. Arguments even {T K}. Arguments fc {T K}.

(** maxc.go:12-25 / maxv.go:12-25: the four tuning parameters (constants or, with the
    build tag tuneparam, variables). *)
Record tuning := Tuning {
  maxLenIns : Z;
  maxLenInsFC : Z;
  maxLenRec : Z;
  maxLenRecFC : Z
}.

(** ** Slices: an offset into the cells of the machine and a length *)

Record slice := Slice { off : Z; len : Z }.

(** slc[i] (read), with Go's bounds check. *)
Definition sget {P T} (s : slice) (i : Z) : cmd P T T :=
  if (0 <=? i) && (i <? len s) then Read (off s + i) Ret else Panic.

(** slc[i] = x, with Go's bounds check. *)
Definition sset {P T} (s : slice) (i : Z) (x : T) : cmd P T unit :=
  if (0 <=? i) && (i <? len s) then Write (off s + i) x (Ret tt) else Panic.

(** slc[l], slc[h] = slc[h], slc[l] *)
Definition sswap {P T} (s : slice) (l h : Z) : cmd P T unit :=
  x <- sget s h ;; y <- sget s l ;; sset s l x ;;; sset s h y.

(** slc[l:h] and slc[l:h:h], with Go's bounds check. *)
Definition reslice {P T} (s : slice) (l h : Z) : cmd P T slice :=
  if (0 <=? l) && (l <=? h) && (h <=? len s) then Ret (Slice (off s + l) (h - l)) else Panic.

(** ** Insertion sort and checker *)

(** X:26-49, func insertionX.  [lt] compares two elements.  Outer loop: h; inner loop:
    l, from label start.  Inner result: [Some l] = goto last, [None] = continue. *)
Definition insertion {P U} (lt : U -> U -> bool) (s : slice) : cmd P U unit :=
  Loop 1 (fun h =>
    if h <? len s then
      val <- sget s h ;;
      r <- Loop h (fun l =>
             pre <- sget s (l - 1) ;;
             if lt val pre then
               sset s l pre ;;;
               (if l - 1 =? 0 then done (Some 0) else goto (l - 1))
             else if l =? h then done None else done (Some l)) ;;
      match r with
      | Some l => sset s l val ;;; goto (h + 1)
      | None => goto (h + 1)
      end
    else done tt).

(** X:15-24, func isSortedX (all kinds but F4, F8). *)
Definition isSorted {P U} (lt : U -> U -> bool) (s : slice) : cmd P U Z :=
  Loop (len s - 1) (fun i =>
    if 0 <? i then
      x <- sget s i ;; y <- sget s (i - 1) ;;
      if lt x y then done i else goto (i - 1)
    else done 0).

(** ** Procedures that are called recursively or started as goroutines *)

Inductive proc (K : Type) :=
| PShort (s : slice)            (* shortX(s) *)
| PLong (s : slice) (sv : bool) (* longX(s, sv); sv = false: nil *)
| PGLong (s : slice)            (* go gLongX(s, &sv) *)
| PGPart (s : slice) (pv : K).  (* go gPartOneX(s, pv, sv.done) *)
Arguments PShort {K}. Arguments PLong {K}. Arguments PGLong {K}. Arguments PGPart {K}.

(** Label states of the partitioning loops. *)
Inductive label :=
| LSecond (l h : Z) | LSwap (l h : Z) | LNext (l h : Z)
| LStart (l h : Z) | LScan (l h : Z) | LLast (l h : Z).

Section Code.
Context {Wd : word}.
Context {T K : Type}.
Variable kd : kind T K.
Variable tn : tuning.
Variable meanI : Z -> Z -> Z.       (* sixb.MeanI on indices *)

Let C := cmd (proc K) T.
Let maxIns := if fc kd then maxLenInsFC tn else maxLenIns tn.
Let maxRec := if fc kd then maxLenRecFC tn else maxLenRec tn.

(** Comparison of two elements by key. *)
Definition ltT (x y : T) : bool := ltb kd (key kd x) (key kd y).

(** X:60-64 (F4:75-79, S:60-64, B, LenS:60-64): collect n samples.  The array [sample] is
    filled from its end, so each new sample is put in front.  Entries of the Go array
    beyond n are never used. *)
Definition samples (s : slice) (n first step : Z) : C (list K) :=
  Loop (n - 1, first, []) (fun '(i, f, acc) =>
    if 0 <=? i then
      x <- sget s f ;;
      goto (i - 1, uw (f + step), key kd x :: acc)
    else done acc).

(** X:51-69 (F4:66-83, S:51-68, B, LenS), func pivotX. *)
Definition pivot (s : slice) (n : Z) : C K :=
  let '(first, step, _) := minMaxSample (uw (len s)) n in
  smp <- samples s n first step ;;
  Local smp (insertion (ltb kd) (Slice 0 n)) (fun smp =>
    let m := Z.shiftr n 1 in
    if even kd then
      match lget smp (m - 1), lget smp m with
      | Some x, Some y => Ret (mean kd x y)
      | _, _ => Panic
      end
    else
      match lget smp m with
      | Some x => Ret x
      | None => Panic
      end).

(** Number of samples: pivotX(slc, nsConc), pivotX(slc, nsLong) for the even kinds
    (X:187, 277), one less for the odd ones (F4:201, 288; S:186, 273). *)
Definition nsamples (n : Z) : Z := if even kd then n else n - 1.

(** X:71-120, func partOneX. *)
Definition partOne (s : slice) (pv : K) : C Z :=
  Loop (LStart 0 (len s - 1)) (fun st =>
    match st with
    | LSecond l h =>
        let h := h - 1 in
        if h <=? l then done l
        else x <- sget s h ;;
             if leb kd (key kd x) pv then goto (LSwap l h) else goto (LSecond l h)
    | LSwap l h => sswap s l h ;;; goto (LNext l h)
    | LNext l h => goto (LStart (l + 1) (h - 1))
    | LStart l h =>
        if h <=? l then goto (LLast l h)
        else x <- sget s h ;;
             if leb kd pv (key kd x) then
               y <- sget s l ;;
               if ltb kd pv (key kd y) then goto (LSecond l h) else goto (LNext l h)
             else goto (LScan l h)
    | LScan l h =>
        x <- sget s l ;;
        if leb kd pv (key kd x) then goto (LSwap l h)
        else let l := l + 1 in
             if h <=? l then done (l + 1) else goto (LScan l h)
    | LLast l h =>
        if l =? h then
          x <- sget s h ;;
          if ltb kd (key kd x) pv then done (l + 1) else done l
        else done l
    end).

(** X:122-173, func partTwoX. *)
Definition partTwo (s : slice) (l h : Z) (pv : K) : C Z :=
  let l := l - 1 in
  if h <=? l then Ret (-1)
  else
  Loop (LStart l h) (fun st =>
    match st with
    | LSecond l h =>
        let h := h + 1 in
        if len s <=? h then done l
        else x <- sget s h ;;
             if leb kd (key kd x) pv then goto (LSwap l h) else goto (LSecond l h)
    | LSwap l h => sswap s l h ;;; goto (LNext l h)
    | LNext l h => goto (LStart (l - 1) (h + 1))
    | LStart l h =>
        if l <? 0 then done h
        else if len s <=? h then done l
        else x <- sget s h ;;
             if leb kd pv (key kd x) then
               y <- sget s l ;;
               if ltb kd pv (key kd y) then goto (LSecond l h) else goto (LNext l h)
             else goto (LScan l h)
    | LScan l h =>
        x <- sget s l ;;
        if leb kd pv (key kd x) then goto (LSwap l h)
        else let l := l - 1 in
             if l <? 0 then done h else goto (LScan l h)
    | LLast l h => done l                                     (* no such label: unused *)
    end).

(** X:175-180, func gPartOneX. *)
Definition gPartOne (s : slice) (pv : K) : C unit :=
  k <- partOne s pv ;; Send k (Ret tt).

(** X:197-212, the gap-closing loops of partConX. *)
Definition gapLow (s : slice) (pv : K) (r k : Z) : C Z :=
  Loop (r, k) (fun '(r, k) =>
    if 0 <=? r then
      x <- sget s r ;;
      if ltb kd pv (key kd x) then
        let k := k - 1 in sswap s r k ;;; goto (r - 1, k)
      else goto (r - 1, k)
    else done k).

Definition gapHigh (s : slice) (pv : K) (r k : Z) : C Z :=
  Loop (r, k) (fun '(r, k) =>
    if r <? len s then
      x <- sget s r ;;
      if ltb kd (key kd x) pv then
        sswap s r k ;;; goto (r + 1, k + 1)
      else goto (r + 1, k)
    else done k).

(** X:182-214, func partConX. *)
Definition partCon (s : slice) : C Z :=
  pv <- pivot s (nsamples nsConc) ;;
  let mid := Z.shiftr (len s) 1 in
  let l := Z.shiftr mid 1 in
  let h := meanI mid (len s) in
  pl <- reslice s l h ;;
  Fork (PGPart pl pv) (
  r <- partTwo s l h pv ;;
  Recv (fun k0 =>
  let k := l + k0 in
  if r <? mid then gapLow s pv r k else gapHigh s pv r k)).

(** X:239-245 (and X:281-287, X:344-350): k splits ar into the shorter range aq and the
    longer range ar; result (aq, ar). *)
Definition split (s : slice) (k : Z) : C (slice * slice) :=
  if k <? len s - k then
    aq <- reslice s 0 k ;; ar <- reslice s k (len s) ;; Ret (aq, ar)
  else
    aq <- reslice s k (len s) ;; ar <- reslice s 0 k ;; Ret (aq, ar).

(** X:219-234 (LenS:219-235) and F4:233-245, S:218-230, B:218-230: pivot of shortX. *)
Definition pivotShort (s : slice) : C K :=
  if even kd then
    let '(first, step) := minMaxFour (u32 (len s)) in
    a <- sget s first ;;
    b <- sget s (u32 (first + step)) ;;
    c <- sget s (u32 (first + u32 (2 * step))) ;;
    d <- sget s (u32 (first + u32 (3 * step))) ;;
    let a := key kd a in let b := key kd b in let c := key kd c in let d := key kd d in
    let '(d, b) := if ltb kd d b then (b, d) else (d, b) in
    let '(c, a) := if ltb kd c a then (a, c) else (c, a) in
    let c := if ltb kd d c then d else c in
    let b := if ltb kd b a then a else b in
    Ret (mean kd b c)
  else
    let '(first, step, last) := minMaxSample (uw (len s)) 3 in
    f <- sget s first ;;
    pv <- sget s (uw (first + step)) ;;
    l <- sget s last ;;
    let f := key kd f in let pv := key kd pv in let l := key kd l in
    let '(pv, f) := if ltb kd pv f then (f, pv) else (pv, f) in
    let pv := if ltb kd l pv then (if ltb kd l f then f else l) else pv in
    Ret pv.

(** X:216-261, func shortX.  Loop state: [inl ar] = label start, [inr (ar, aq)] = label
    isort.  Comparing &ar[0] and &aq[0] is comparing offsets, after the two bounds
    checks. *)
Definition short (ar : slice) : C unit :=
  Loop (inl ar : slice + slice * slice) (fun st =>
    match st with
    | inl ar =>
        pv <- pivotShort ar ;;
        k <- partOne ar pv ;;
        '(aq, ar) <- split ar k ;;
        if maxIns <? len aq then
          Call (PShort aq) (Ret tt) ;;; goto (inl ar)
        else goto (inr (ar, aq))
    | inr (ar, aq) =>
        insertion ltT aq ;;;
        if maxIns <? len ar then goto (inl ar)
        else if (0 <? len ar) && (0 <? len aq) then
          if off ar =? off aq then done tt else goto (inr (ar, ar))
        else Panic
    end).

(** sorty.go:86-92, func gorFull: reads MaxGor, then sv.nGor (not atomic together). *)
Definition gorFull : C bool :=
  LoadMax (fun mg => LoadGor (fun ng => Ret (mg <=? ng))).

(** X:263-272, func gLongX.  The recursive procedure longX is entered with [Call]. *)
Definition gLong (ar : slice) : C unit :=
  Call (PLong ar true) (
  AddGor (2 ^ 64 - 1) (fun n => if n =? 0 then Send 0 (Ret tt) else Ret tt)).

(** X:274-317, func longX. *)
Definition long (ar : slice) (sv : bool) : C unit :=
  Loop ar (fun ar =>
    pv <- pivot ar (nsamples nsLong) ;;
    k <- partOne ar pv ;;
    '(aq, ar) <- split ar k ;;
    if len aq <=? maxRec then
      (if maxIns <? len aq then Call (PShort aq) (Ret tt) else insertion ltT aq) ;;;
      if maxRec <? len ar then goto ar
      else Call (PShort ar) (done tt)
    else
      full <- (if sv then gorFull else Ret true) ;;
      if full : bool then
        Call (PLong aq sv) (goto ar)
      else
        AddGor 1 (fun _ => Fork (PGLong ar) (goto aq))).

(** Procedure table: what a [Call]/[Fork] executes. *)
Definition body (p : proc K) : C unit :=
  match p with
  | PShort s => short s
  | PLong s sv => long s sv
  | PGLong s => gLong s
  | PGPart s pv => gPartOne s pv
  end.

(** X:324, 364: the expression 2*(MaxLenRec+1), an int (wraps around). *)
Definition minConc : Z := iw (2 * (maxRec + 1)).

(** X:336-374 (F4:379-417, S:330-368): the concurrent part of sortX. *)
Definition sortConc (ar : slice) : C unit :=
  MakeSv (
  ar <- Loop ar (fun ar =>
    k <- partCon ar ;;
    '(aq, ar) <- split ar k ;;
    (if maxRec <? len aq then AddGor 1 (fun _ => Fork (PGLong aq) (Ret tt))
     else if maxIns <? len aq then Call (PShort aq) (Ret tt)
     else insertion ltT aq) ;;;
    if len ar <? minConc then done ar
    else full <- gorFull ;; if full : bool then done ar else goto ar) ;;
  Call (PLong ar true) (
  AddGor (2 ^ 64 - 1) (fun n =>
    if n =? 0 then Ret tt else Recv (fun _ => Ret tt)))).

(** X:319-375 (S:315-369, LenS:320-376), func sortX; F4:367-418 after the NaN prepass. *)
Definition sort (ar : slice) : C unit :=
  single <- (if len ar <? minConc then Ret true
             else LoadMax (fun mg => Ret (mg <=? 1))) ;;
  if single : bool then
    if maxRec <? len ar then Call (PLong ar false) (Ret tt)
    else if maxIns <? len ar then Call (PShort ar) (Ret tt)
    else insertion ltT ar
  else sortConc ar.

End Code.
