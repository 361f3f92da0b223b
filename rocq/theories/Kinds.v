(** * Model of the ten element types, the NaN handling and the type dispatch

    [Typed.v] models the code shared by the ten type-specific files; this file supplies
    the element types, the code that only the float files have, and the dispatch of
    SortSlice, IsSortedSlice, SortLen, IsSortedLen. *)

From Coq Require Import List ZArith Lia Bool.
From Coq Require Import Floats.SpecFloat.
From Verif Require Import Lang Scalar Typed.
Import ListNotations.
Open Scope Z_scope.
Open Scope cmd_scope.

(** ** Elements *)

(** A Go string: address and contents (bytes).  Two strings with equal contents at
    different addresses are different elements, so "permutation" below is about headers. *)
Record strh := StrH { sptr : Z; sbytes : list Z }.
(** A Go []byte: address, capacity and contents. *)
Record slch := SlcH { bptr : Z; bcap : Z; bbytes : list Z }.
(** A Go []T for any T: address, length and capacity (SortLen looks at the length only;
    sortyLen.go:28-30, 49-51 view [][]T as [][]byte). *)
Record anyh := AnyH { aptr : Z; alen : Z; acap : Z }.

(** The ten specialisations: file suffixes I4 I8 U4 U8 F4 F8 S B LenS LenB. *)
Inductive ety := TI4 | TI8 | TU4 | TU8 | TF4 | TF8 | TS | TB | TLenS | TLenB.

(** Elements in memory.  Numbers are bit patterns (as unsigned integers), because
    extractSK (sorty.go:140-174 with the conversions in sortySlice.go) reinterprets memory. *)
Definition elem (e : ety) : Type :=
  match e with
  | TS | TLenS => strh
  | TB => slch
  | TLenB => anyh
  | _ => Z
  end.

(** What is compared. *)
Definition keyT (e : ety) : Type :=
  match e with
  | TF4 | TF8 => spec_float
  | TS | TB => list Z
  | _ => Z
  end.

(** Two's complement reading of a [w]-bit pattern (int32, int64). *)
Definition signed (w b : Z) : Z := if b <? 2 ^ (w - 1) then b else b - 2 ^ w.

(** IEEE 754 reading of a bit pattern with [mw] mantissa bits and [ew] exponent bits
    (float32: 23, 8; float64: 52, 11). *)
Definition decode (mw ew b : Z) : spec_float :=
  let m := b mod 2 ^ mw in
  let e := (b / 2 ^ mw) mod 2 ^ ew in
  let sgn := 0 <? b / 2 ^ (mw + ew) in
  let emin := 2 - 2 ^ (ew - 1) - mw in
  if e =? 2 ^ ew - 1 then
    match m with 0 => S754_infinity sgn | _ => S754_nan end
  else if e =? 0 then
    match m with Zpos p => S754_finite sgn p emin | _ => S754_zero sgn end
  else
    match m + 2 ^ mw with Zpos p => S754_finite sgn p (e - 1 + emin) | _ => S754_nan end.

(** Go's < and <= on strings: bytewise lexicographic. *)
Fixpoint bytes_lt (a b : list Z) : bool :=
  match a, b with
  | _, [] => false
  | [], _ :: _ => true
  | x :: a', y :: b' => if x <? y then true else if y <? x then false else bytes_lt a' b'
  end.
Fixpoint bytes_le (a b : list Z) : bool :=
  match a, b with
  | [], _ => true
  | _ :: _, [] => false
  | x :: a', y :: b' => if x <? y then true else if y <? x then false else bytes_le a' b'
  end.

(** What the code depends on beyond /repo: the word size of the platform in bytes (4 or 8), and
    the functions of github.com/jfcg/sixb used for averages. *)
Record plat := Plat {
  wb : Z;
  mI4 : Z -> Z -> Z; mI8 : Z -> Z -> Z; mU4 : Z -> Z -> Z; mU8 : Z -> Z -> Z;
  mI : Z -> Z -> Z                                               (* sixb.MeanI *)
}.

Definition pword (pl : plat) : word := 2 ^ (8 * wb pl - 2).

Definition blen {X} (l : list X) : Z := Z.of_nat (length l).

(** The ten instances of the code of [Typed.v]. *)
Definition kindOf (pl : plat) (e : ety) : kind (elem e) (keyT e) :=
  match e as e return kind (elem e) (keyT e) with
  | TI4 => Kind (T := Z) (K := Z) (signed 32) Z.ltb Z.leb (mI4 pl) true false  (* sortyI4.go *)
  | TI8 => Kind (T := Z) (K := Z) (signed 64) Z.ltb Z.leb (mI8 pl) true false  (* sortyI8.go *)
  | TU4 => Kind (T := Z) (K := Z) (fun b => b) Z.ltb Z.leb (mU4 pl) true false (* sortyU4.go *)
  | TU8 => Kind (T := Z) (K := Z) (fun b => b) Z.ltb Z.leb (mU8 pl) true false (* sortyU8.go *)
  | TF4 => Kind (T := Z) (decode 23 8) SFltb SFleb (fun x _ => x) false false  (* sortyF4.go *)
  | TF8 => Kind (T := Z) (decode 52 11) SFltb SFleb (fun x _ => x) false false (* sortyF8.go *)
  | TS => Kind sbytes bytes_lt bytes_le (fun x _ => x) false true              (* sortyS.go *)
  | TB => Kind bbytes bytes_lt bytes_le (fun x _ => x) false true              (* sortyB.go *)
  | TLenS => Kind (fun x => blen (sbytes x)) Z.ltb Z.leb (mI pl) true false    (* sortyLenS.go *)
  | TLenB => Kind alen Z.ltb Z.leb (mI pl) true false                          (* sortyLenB.go *)
  end.

Definition isFloat (e : ety) : bool := match e with TF4 | TF8 => true | _ => false end.

(** Go's x != x, true for NaN only; used by the float files only. *)
Definition selfNe (e : ety) : elem e -> bool :=
  match e as e return elem e -> bool with
  | TF4 => fun b : Z => negb (SFeqb (decode 23 8 b) (decode 23 8 b))
  | TF8 => fun b : Z => negb (SFeqb (decode 52 11 b) (decode 52 11 b))
  | _ => fun _ => false
  end.

(** ** Float-only code, with FloatOption values (sorty.go:40-46): NaNsmall = -1,
    NaNignore = 0 (every other value acts the same), NaNlarge = 1.  The code reads the variable
    NaNoption up to twice per call (sortyF4.go:335, 350 and 19, 25); [o1] and [o2] are what the
    two reads return. *)
Definition NaNsmall : Z := -1.
Definition NaNignore : Z := 0.
Definition NaNlarge : Z := 1.

Section Float.
Context {P T : Type}.
Variable ne : T -> bool.          (* x != x *)

(** sortyF4.go:335-349 (sortyF8.go the same): move NaNs to the end. *)
Definition nanToEnd (s : slice) : cmd P T slice :=
  h <- Loop (0, len s - 1) (fun '(l, h) =>
         if l <=? h then
           x <- sget s h ;;
           if ne x then goto (l, h - 1)
           else
             y <- sget s l ;;
             if ne y then sset s l x ;;; sset s h y ;;; goto (l + 1, h - 1)
             else goto (l + 1, h)
         else done h) ;;
  reslice s 0 (h + 1).

(** sortyF4.go:350-365: move NaNs to the start. *)
Definition nanToStart (s : slice) : cmd P T slice :=
  l <- Loop (0, len s - 1) (fun '(l, h) =>
         if l <=? h then
           y <- sget s l ;;
           if ne y then goto (l + 1, h)
           else
             x <- sget s h ;;
             if ne x then sset s l x ;;; sset s h y ;;; goto (l + 1, h - 1)
             else goto (l, h - 1)
         else done l) ;;
  reslice s l (len s).

(** sortyF4.go:333-366: the part of sortF4 before the common code. *)
Definition prepass (o1 o2 : Z) (s : slice) : cmd P T slice :=
  if o1 =? NaNlarge then nanToEnd s
  else if o2 =? NaNsmall then nanToStart s
  else Ret s.

(** sortyF4.go:17-39, func isSortedF4; [ge x y] is Go's x >= y. *)
Definition isSortedF (ge : T -> T -> bool) (o1 o2 : Z) (s : slice) : cmd P T Z :=
  ' (l, h) <-
    (if o1 =? NaNlarge then
       Loop (len s - 1) (fun h =>
         if 0 <=? h then x <- sget s h ;; if negb (ne x) then done (0, h) else goto (h - 1)
         else done (0, h))
     else if o2 =? NaNsmall then
       Loop 0 (fun l =>
         if l <=? len s - 1 then
           x <- sget s l ;; if negb (ne x) then done (l, len s - 1) else goto (l + 1)
         else done (l, len s - 1))
     else Ret (0, len s - 1)) ;;
  Loop h (fun i =>
    if l <? i then
      x <- sget s i ;; y <- sget s (i - 1) ;;
      if negb (ge x y) then done i else goto (i - 1)
    else done 0).

End Float.

(** ** The sorters and checkers of the ten types *)

(** func sortX of the ten files, for the two values read from NaNoption. *)
Definition sortLive (pl : plat) (tn : tuning) (o1 o2 : Z) (e : ety) (s : slice)
  : cmd (proc (keyT e)) (elem e) unit :=
  if isFloat e then
    s' <- prepass (selfNe e) o1 o2 s ;; sort (Wd := pword pl) (kindOf pl e) tn (mI pl) s'
  else sort (Wd := pword pl) (kindOf pl e) tn (mI pl) s.

(** While NaNoption does not change. *)
Definition sortProg (pl : plat) (tn : tuning) (opt : Z) (e : ety) (s : slice)
  : cmd (proc (keyT e)) (elem e) unit := sortLive pl tn opt opt e s.

(** Their recursive / goroutine procedures. *)
Definition procs (pl : plat) (tn : tuning) (e : ety)
  : proc (keyT e) -> cmd (proc (keyT e)) (elem e) unit := body (Wd := pword pl) (kindOf pl e) tn.

(** func isSortedX of the ten files, for the two values read from NaNoption. *)
Definition checkLive (pl : plat) (o1 o2 : Z) (e : ety) (s : slice)
  : cmd (proc (keyT e)) (elem e) Z :=
  if isFloat e then
    isSortedF (selfNe e) (fun x y => leb (kindOf pl e) (key (kindOf pl e) y) (key (kindOf pl e) x)) o1 o2 s
  else isSorted (ltT (kindOf pl e)) s.

(** While NaNoption does not change. *)
Definition checkProg (pl : plat) (opt : Z) (e : ety) (s : slice)
  : cmd (proc (keyT e)) (elem e) Z := checkLive pl opt opt e s.

(** ** Dispatch on the dynamic type *)

(** A Go type as far as package reflect is asked about it: its Kind (numbered as in
    package reflect), and for slice types the element type.  Named types have the Kind of
    their underlying type. *)
Inductive rtype := RSlice (e : rtype) | ROther (k : Z).

Definition rkind (t : rtype) : Z := match t with RSlice _ => 23 | ROther k => k end.

(** A well-formed [rtype]: [ROther] is used for the 26 non-slice kinds of reflect. *)
Fixpoint rwf (t : rtype) : Prop :=
  match t with RSlice e => rwf e | ROther k => 1 <= k <= 26 /\ k <> 23 end.

(** sorty.go:140-174, func extractSK: the kind it returns, for a platform with
    [wb]-byte words; 0 is reflect.Invalid, 100 is sliceBias (sorty.go:138).  The
    extracted pointer and length are the slice itself. *)
Definition extractSK (wb : Z) (t : rtype) : Z :=
  match t with
  | ROther _ => 0
  | RSlice e =>
      let k := rkind e in
      if (k =? 12) || (k =? 22) || (k =? 26) then 10 + Z.shiftr wb 3   (* Uintptr Pointer UnsafePointer *)
      else if k =? 7 then 10 + Z.shiftr wb 3                           (* Uint *)
      else if k =? 2 then 5 + Z.shiftr wb 3                            (* Int *)
      else match e with
           | RSlice e' => 100 + rkind e'
           | ROther _ =>
               if (k =? 5) || (k =? 6) || (k =? 10) || (k =? 11) || (k =? 13) || (k =? 14) || (k =? 24)
               then k else 0
           end
  end.

(** sortySlice.go:24-53 and 64-94, IsSortedSlice and SortSlice: the specialisation that is
    run; [None]: panic("... invalid input type"). *)
Definition dispatchSlice (wb : Z) (t : rtype) : option ety :=
  let k := extractSK wb t in
  if k =? 5 then Some TI4
  else if k =? 6 then Some TI8
  else if k =? 10 then Some TU4
  else if k =? 11 then Some TU8
  else if k =? 13 then Some TF4
  else if k =? 14 then Some TF8
  else if k =? 100 + 8 then Some TB
  else if k =? 24 then Some TS
  else None.

(** sortyLen.go:22-33 and 43-55, IsSortedLen and SortLen. *)
Definition dispatchLen (wb : Z) (t : rtype) : option ety :=
  let k := extractSK wb t in
  if k =? 24 then Some TLenS
  else if 100 <=? k then Some TLenB
  else None.

(** What dispatches on the dynamic type of the argument; [None] is the nil interface, for which
    reflect.TypeOf gives nil and tipe.Kind() (sorty.go:145) is a nil dereference. *)
Definition dispatch (byLen : bool) (wb : Z) (t : option rtype) : option ety :=
  match t with
  | None => None
  | Some t => if byLen then dispatchLen wb t else dispatchSlice wb t
  end.

(** sortySlice.go:64-94, func SortSlice, and sortyLen.go:43-55, func SortLen: the element type as
    which the slice is sorted and the program run on the slice.  After a panic the type does not
    matter. *)
Definition apiSort (pl : plat) (tn : tuning) (opt : Z) (byLen : bool) (t : option rtype)
  : {e : ety & slice -> cmd (proc (keyT e)) (elem e) unit} :=
  match dispatch byLen (wb pl) t with
  | Some e => existT (fun e => slice -> cmd (proc (keyT e)) (elem e) unit) e (sortProg pl tn opt e)
  | None => existT (fun e => slice -> cmd (proc (keyT e)) (elem e) unit) TI4 (fun _ => Panic)
  end.

(** sortySlice.go:24-53, func IsSortedSlice, and sortyLen.go:22-33, func IsSortedLen. *)
Definition apiCheck (pl : plat) (opt : Z) (byLen : bool) (t : option rtype)
  : {e : ety & slice -> cmd (proc (keyT e)) (elem e) Z} :=
  match dispatch byLen (wb pl) t with
  | Some e => existT (fun e => slice -> cmd (proc (keyT e)) (elem e) Z) e (checkProg pl opt e)
  | None => existT (fun e => slice -> cmd (proc (keyT e)) (elem e) Z) TI4 (fun _ => Panic)
  end.

(** sorty.go:33-38, func init: the check of MaxGor and the tuning parameters (constants,
    or variables set at link time with the build tag tuneparam).  The product
    is one of ints. *)
Definition initOk (pl : plat) (mg : Z) (tn : tuning) : bool :=
  (mg <? 4097) && (0 <? mg) && (maxLenRecFC tn <? maxLenRec tn) &&
  (@iw (pword pl) (2 * maxLenIns tn) <? maxLenRecFC tn) && (maxLenInsFC tn <? maxLenIns tn) &&
  (2 * nsShort <? maxLenInsFC tn).

(** maxc.go:12-25 / maxv.go:12-25: shipped values; sorty.go:31: MaxGor = 3. *)
Definition shipped : tuning := Tuning 60 30 600 300.
Definition shippedMaxGor : Z := 3.
