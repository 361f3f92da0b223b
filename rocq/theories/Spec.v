(** * Specification vocabulary

    What the property theorems talk about, written without the definitions used by the
    code model (beyond elements, slices and machine states) or by the proofs. *)

From Coq Require Import List ZArith Lia Bool Permutation Sorted.
From Verif Require Import Lang Typed Kinds.
Import ListNotations.
Open Scope Z_scope.

(** The contents of a slice in a memory, as a list. *)
Definition contents {T} (w : Z -> T) (s : slice) : list T :=
  map (fun n => w (off s + Z.of_nat n)) (seq 0 (Z.to_nat (len s))).

(** The cells of a slice. *)
Definition cellsOf (s : slice) (i : Z) : Prop := off s <= i < off s + len s.

(** One more than the largest int: 2^31 on 32-bit platforms, 2^63 on 64-bit platforms. *)
Definition intSize (pl : plat) : Z := 2 ^ (8 * wb pl - 1).

(** A slice as Go can have it: its length is an int. *)
Definition goSlice (pl : plat) (s : slice) : Prop := 0 <= len s < intSize pl.

(** ** Orders of the Go types *)

(** Value of a [w]-bit two's complement pattern. *)
Definition intVal (w b : Z) : Z := (b + 2 ^ (w - 1)) mod 2 ^ w - 2 ^ (w - 1).

(** Fields of an IEEE pattern: [mw] mantissa bits, [ew] exponent bits. *)
Definition fMan (mw b : Z) : Z := b mod 2 ^ mw.
Definition fExp (mw ew b : Z) : Z := b / 2 ^ mw mod 2 ^ ew.
Definition fNeg (mw ew b : Z) : bool := 2 ^ (mw + ew) <=? b.

Definition fNaN (mw ew b : Z) : Prop := fExp mw ew b = 2 ^ ew - 1 /\ fMan mw b <> 0.

(** Value of a non-NaN IEEE pattern, as a multiple of the smallest positive denormal.  The
    formula gives infinity a value beyond all finite ones, and both zeros the value 0. *)
Definition fVal (mw ew b : Z) : Z :=
  (if fNeg mw ew b then -1 else 1) *
  (if fExp mw ew b =? 0 then fMan mw b
   else (fMan mw b + 2 ^ mw) * 2 ^ (fExp mw ew b - 1)).

(** Lexicographic order on byte strings. *)
Inductive lexle : list Z -> list Z -> Prop :=
| lex_nil b : lexle [] b
| lex_lt x y a b : x < y -> lexle (x :: a) (y :: b)
| lex_eq x a b : lexle a b -> lexle (x :: a) (x :: b).

(** "x may stand before y" for the ten sorters. *)
Definition le (e : ety) : elem e -> elem e -> Prop :=
  match e as e return elem e -> elem e -> Prop with
  | TI4 => fun x y : Z => intVal 32 x <= intVal 32 y
  | TI8 => fun x y : Z => intVal 64 x <= intVal 64 y
  | TU4 | TU8 => fun x y : Z => x <= y
  | TF4 => fun x y : Z => fVal 23 8 x <= fVal 23 8 y
  | TF8 => fun x y : Z => fVal 52 11 x <= fVal 52 11 y
  | TS => fun x y => lexle (sbytes x) (sbytes y)
  | TB => fun x y => lexle (bbytes x) (bbytes y)
  | TLenS => fun x y => (length (sbytes x) <= length (sbytes y))%nat
  | TLenB => fun x y => alen x <= alen y
  end.

Definition nan (e : ety) : elem e -> Prop :=
  match e as e return elem e -> Prop with
  | TF4 => fun b : Z => fNaN 23 8 b
  | TF8 => fun b : Z => fNaN 52 11 b
  | _ => fun _ => False
  end.

(** A strict weak order given as a boolean function: what Sort needs its caller's
    comparison to be. *)
Definition weakOrder {T} (lt : T -> T -> bool) : Prop :=
  (forall x y, lt x y = true -> lt y x = false) /\
  (forall x y z, lt y x = false -> lt z y = false -> lt z x = false).

(** What sorting with a comparison needs to terminate, keep all elements and stay within its
    cells; no order is required. *)
Definition irreflexive {T} (lt : T -> T -> bool) : Prop := forall x, lt x x = false.

(** The comparison [lt] respects the order [lq]: it separates whatever [lq] separates, and never
    contradicts it. On elements that [lq] does not separate, [lt] may answer anything, except that
    no element is less than itself. *)
Definition consistent {T} (lt lq : T -> T -> bool) : Prop :=
  irreflexive lt /\ weakOrder lq /\
  (forall x y, lq x y = true -> lt x y = true) /\
  (forall x y, lt x y = true -> lq y x = false).

(** The documented result of Sort: no element is smaller than one before it. *)
Definition noSmallerAfter {T} (lt : T -> T -> bool) (l : list T) : Prop :=
  StronglySorted (fun x y => lt y x = false) l.

(** Values a Go variable of the element type can have. *)
Definition wellTyped (pl : plat) (e : ety) : elem e -> Prop :=
  match e as e return elem e -> Prop with
  | TI4 | TU4 | TF4 => fun b : Z => 0 <= b < 2 ^ 32
  | TI8 | TU8 | TF8 => fun b : Z => 0 <= b < 2 ^ 64
  | TS | TLenS => fun x => Z.of_nat (length (sbytes x)) < intSize pl
  | TB => fun x => Z.of_nat (length (bbytes x)) < intSize pl
  | TLenB => fun x => 0 <= alen x < intSize pl
  end.

(** All elements of a slice are values of its element type. *)
Definition typedSlice (pl : plat) (e : ety) (w : Z -> elem e) (s : slice) : Prop :=
  goSlice pl s /\ Forall (wellTyped pl e) (contents w s).

(** The documented result of sorting, per NaN option (1: NaNs last, -1: NaNs first). *)
Definition inOrder (e : ety) (opt : Z) (l : list (elem e)) : Prop :=
  exists a x b, l = a ++ x ++ b /\
    Forall (nan e) a /\ Forall (fun y => ~ nan e y) x /\ Forall (nan e) b /\
    StronglySorted (le e) x /\
    (opt = 1 -> a = []) /\ (opt = -1 -> b = []).

(** Inputs for which an order is promised at all: with NaNs ignored (any other option)
    the input must be free of them. *)
Definition sortable (e : ety) (opt : Z) (l : list (elem e)) : Prop :=
  opt = 1 \/ opt = -1 \/ Forall (fun y => ~ nan e y) l.

(** ** Contract of the external functions (github.com/jfcg/sixb) *)

(** An average of two [lo..hi] integers lies between them.  For indices, moreover, it is
    below the larger one, and exact when the average is an integer. *)
Definition between (lo hi : Z) (f : Z -> Z -> Z) : Prop :=
  forall x y, lo <= x < hi -> lo <= y < hi -> Z.min x y <= f x y <= Z.max x y.

Definition platOk (pl : plat) : Prop :=
  (wb pl = 4 \/ wb pl = 8) /\
  between (- 2 ^ 31) (2 ^ 31) (mI4 pl) /\ between (- 2 ^ 63) (2 ^ 63) (mI8 pl) /\
  between 0 (2 ^ 32) (mU4 pl) /\ between 0 (2 ^ 64) (mU8 pl) /\
  between (- intSize pl) (intSize pl) (mI pl) /\
  (forall x y, 0 <= x -> x < y -> y < intSize pl -> mI pl x y < y) /\
  (forall x y, 0 <= x -> x < y -> y < intSize pl -> Z.even (x + y) = true -> 2 * mI pl x y = x + y).

(** ** Tuning parameters: those the package's init accepts (C28), small enough for
    2*(MaxLenRec+1) not to overflow an int. *)
Definition tuningOk (pl : plat) (tn : tuning) : Prop :=
  8 < maxLenInsFC tn /\ maxLenInsFC tn < maxLenIns tn /\ 2 * maxLenIns tn < maxLenRecFC tn /\
  maxLenRecFC tn < maxLenRec tn /\ 2 * (maxLenRec tn + 1) < intSize pl.

(** "x must stand after y": the documented ar[i] < ar[i-1] of the checkers is
    [lt e (ar i) (ar (i-1))]. *)
Definition lt (e : ety) (x y : elem e) : Prop := le e x y /\ ~ le e y x.

(** Equal as far as the order can tell: the same number, the same bytes, the same length;
    for floats, the same IEEE value (so +0 and -0 are the same) or both NaN. *)
Definition same (e : ety) : elem e -> elem e -> Prop :=
  match e as e return elem e -> elem e -> Prop with
  | TI4 | TI8 | TU4 | TU8 => fun x y : Z => x = y
  | TF4 => fun x y : Z => (fNaN 23 8 x /\ fNaN 23 8 y) \/
                          (~ fNaN 23 8 x /\ ~ fNaN 23 8 y /\ fVal 23 8 x = fVal 23 8 y)
  | TF8 => fun x y : Z => (fNaN 52 11 x /\ fNaN 52 11 y) \/
                          (~ fNaN 52 11 x /\ ~ fNaN 52 11 y /\ fVal 52 11 x = fVal 52 11 y)
  | TS => fun x y => sbytes x = sbytes y
  | TB => fun x y => bbytes x = bbytes y
  | TLenS => fun x y => length (sbytes x) = length (sbytes y)
  | TLenB => fun x y => alen x = alen y
  end.

(** Elements that are equal for the order keep their relative order: selecting any set
    of mutually equivalent elements gives the same sequence before and after. *)
Definition stable (e : ety) (before after : list (elem e)) : Prop :=
  forall p : elem e -> bool, (forall y z, p y = true -> p z = true -> le e z y) ->
    filter p after = filter p before.

(** A split of a slice at [k]: both parts are non-empty, and everything in the left part
    may stand before everything in the right part. *)
Definition properSplit (e : ety) (s : slice) (v w : Z -> elem e) (k : Z) : Prop :=
  0 < k < len s /\ Permutation (contents w s) (contents v s) /\
  forall i j, 0 <= i < k -> k <= j < len s -> le e (w (off s + i)) (w (off s + j)).

(** ** The same for Sort(n, lsw), with the caller's comparison *)

(** Neither must stand before the other. *)
Definition sameBy {T} (lt : T -> T -> bool) (x y : T) : Prop := lt x y = false /\ lt y x = false.

Definition stableBy {T} (lt : T -> T -> bool) (before after : list T) : Prop :=
  forall p : T -> bool, (forall y z, p y = true -> p z = true -> lt y z = false) ->
    filter p after = filter p before.

Definition properSplitBy {T} (lt : T -> T -> bool) (s : slice) (v w : Z -> T) (k : Z) : Prop :=
  0 < k < len s /\ Permutation (contents w s) (contents v s) /\
  forall i j, 0 <= i < k -> k <= j < len s -> lt (w (off s + j)) (w (off s + i)) = false.

(** ** Results of the checkers *)

(** What the checkers of the non-float types promise (C19, C21). *)
Definition checkSpec (e : ety) (s : slice) (v : Z -> elem e) (r : Z) : Prop :=
  (r = 0 <-> StronglySorted (le e) (contents v s)) /\
  (r <> 0 -> 0 < r < len s /\ lt e (v (off s + r)) (v (off s + r - 1)) /\
             forall i, r < i < len s -> ~ lt e (v (off s + i)) (v (off s + i - 1))).

(** What the float checkers promise (C20). *)
Definition checkSpecF (e : ety) (opt : Z) (s : slice) (v : Z -> elem e) (r : Z) : Prop :=
  (opt = 1 \/ opt = -1 -> (r = 0 <-> inOrder e opt (contents v s))) /\
  (opt <> 1 -> opt <> -1 -> Forall (fun x => ~ nan e x) (contents v s) ->
     (r = 0 <-> inOrder e opt (contents v s))) /\
  (r <> 0 -> 0 < r < len s /\
     (nan e (v (off s + r)) \/ nan e (v (off s + r - 1)) \/ lt e (v (off s + r)) (v (off s + r - 1)))).

(** What IsSorted promises (C18). *)
Definition checkSpecBy {T} (lt : T -> T -> bool) (n : Z) (v : Z -> T) (r : Z) : Prop :=
  (r = 0 <-> forall i, 0 < i < n -> lt (v i) (v (i - 1)) = false) /\
  (r <> 0 -> 0 < r < n /\ lt (v r) (v (r - 1)) = true /\
             forall i, r < i < n -> lt (v i) (v (i - 1)) = false).

(** ** Documented input types (sortySlice.go:14-21, 55-61; sortyLen.go:14-19, 35-41)

    Kinds are numbered as in package reflect. *)
Definition rInt := ROther 2.
Definition rInt32 := ROther 5.
Definition rInt64 := ROther 6.
Definition rUint := ROther 7.
Definition rUint8 := ROther 8.
Definition rUint32 := ROther 10.
Definition rUint64 := ROther 11.
Definition rUintptr := ROther 12.
Definition rFloat32 := ROther 13.
Definition rFloat64 := ROther 14.
Definition rPointer := ROther 22.
Definition rString := ROther 24.
Definition rUnsafePointer := ROther 26.

(** [docSlice wb t e]: SortSlice's documentation lists [t], and its elements are to be
    compared as [e] on a platform with [wb]-byte words. *)
Inductive docSlice : Z -> rtype -> ety -> Prop :=
| doc_int4 : docSlice 4 (RSlice rInt) TI4
| doc_int8 : docSlice 8 (RSlice rInt) TI8
| doc_int32 wb : docSlice wb (RSlice rInt32) TI4
| doc_int64 wb : docSlice wb (RSlice rInt64) TI8
| doc_uint4 : docSlice 4 (RSlice rUint) TU4
| doc_uint8 : docSlice 8 (RSlice rUint) TU8
| doc_uint32 wb : docSlice wb (RSlice rUint32) TU4
| doc_uint64 wb : docSlice wb (RSlice rUint64) TU8
| doc_word4 t : In t [rUintptr; rPointer; rUnsafePointer] -> docSlice 4 (RSlice t) TU4
| doc_word8 t : In t [rUintptr; rPointer; rUnsafePointer] -> docSlice 8 (RSlice t) TU8
| doc_float32 wb : docSlice wb (RSlice rFloat32) TF4
| doc_float64 wb : docSlice wb (RSlice rFloat64) TF8
| doc_string wb : docSlice wb (RSlice rString) TS
| doc_bytes wb : docSlice wb (RSlice (RSlice rUint8)) TB.

Inductive docLen : rtype -> ety -> Prop :=
| doc_lenS : docLen (RSlice rString) TLenS
| doc_lenB t : docLen (RSlice (RSlice t)) TLenB.

(** The argument has a type documented for SortSlice and IsSortedSlice ([byLen = false]), or for
    SortLen and IsSortedLen. *)
Definition docArg (byLen : bool) (wb : Z) (t : option rtype) (e : ety) : Prop :=
  match t with
  | None => False
  | Some t => if byLen then docLen t e else docSlice wb t e
  end.

(** ** Sample positions for pivot selection *)

(** Equidistant sample positions first + j*step, j < n, inside [0,slen). *)
Definition valid_samples (slen n first step : Z) : Prop :=
  0 <= first /\ 1 <= step /\ first + (n - 1) * step < slen.

(** Every index is at distance at most [D] from a sample. *)
Definition within (slen n first step D : Z) : Prop :=
  forall i, 0 <= i < slen -> exists j, 0 <= j < n /\ Z.abs (i - (first + j * step)) <= D.

(** An average rounded down, or to either neighbour: what makes Search logarithmic. *)
Definition halving (pl : plat) : Prop :=
  forall x y, 0 <= x -> x < y -> y < intSize pl -> x + y - 1 <= 2 * mI pl x y <= x + y.

(** A predicate that stays true once it is true. *)
Definition monotone (n : Z) (fn : Z -> bool) : Prop :=
  forall i, 0 <= i -> i + 1 < n -> fn i = true -> fn (i + 1) = true.

(** A question about elements that is answered yes for everything at or above an element for
    which it is answered yes (such as "is it >= x?"); NaNs count as largest, smallest or must not
    be there, as for the sorters. *)
Definition upward (e : ety) (opt : Z) (p : elem e -> bool) : Prop :=
  (forall x y, ~ nan e x -> ~ nan e y -> le e x y -> p x = true -> p y = true) /\
  (opt = 1 -> forall x, nan e x -> p x = true) /\
  (opt = -1 -> forall x, nan e x -> p x = false).

(** [r] elements of the original contents [l0] are answered no; they come first. *)
Definition splitsAt {T} (p : T -> bool) (n r : Z) (w : Z -> T) (l0 : list T) : Prop :=
  r = Z.of_nat (length (filter (fun x => negb (p x)) l0)) /\
  (forall i, 0 <= i < r -> p (w i) = false) /\ (forall i, r <= i < n -> p (w i) = true).
