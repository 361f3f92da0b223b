(** * Elements as bytes

    [Typed.v] treats memory as cells that hold whole elements.  Here memory is an array of bytes,
    in which slices of any element types lie anywhere: SortSlice and SortLen look at the memory of
    their argument as a slice of one of the ten types (sorty.go:168-172: address and length are
    those of the argument; conversions in sortySlice.go:66-91 and sortyLen.go:45-52). *)

From Coq Require Import List ZArith Lia Bool Permutation.
From Verif Require Import Lang Scalar Typed Kinds Spec Calls.
Import ListNotations.
Open Scope Z_scope.

(** An address space, and the bytes in it. *)
Definition bytes := Z -> Z.
Definition isBytes (W : bytes) : Prop := forall a, 0 <= W a < 256.

(** Words of [w] bytes; [be]: big-endian.  The [i]-th digit (to base 256) is at [pos be w i]. *)
Definition pos (be : bool) (w i : Z) : Z := if be then w - 1 - i else i.
Definition digit (v i : Z) : Z := v / 256 ^ i mod 256.

Fixpoint sumTo (f : Z -> Z) (n : nat) : Z :=
  match n with O => 0 | S n' => sumTo f n' + f (Z.of_nat n') * 256 ^ Z.of_nat n' end.

Definition load (be : bool) (w : Z) (W : bytes) (a : Z) : Z := sumTo (fun i => W (a + pos be w i)) (Z.to_nat w).

(** The bytes of a string. *)
Definition span (W : bytes) (p n : Z) : list Z := map (fun i => W (p + Z.of_nat i)) (seq 0 (Z.to_nat n)).

Section Layout.
Variables (pl : plat) (be : bool).

(** Go's layout: numbers are one word of 4 or 8 bytes; strings are address and length, slices
    address, length and capacity, each a machine word. *)
Definition wsize (e : ety) : Z :=
  match e with TI4 | TU4 | TF4 => 4 | TI8 | TU8 | TF8 => 8 | _ => wb pl end.
Definition nwords (e : ety) : Z :=
  match e with TS | TLenS => 2 | TB | TLenB => 3 | _ => 1 end.
Definition esize (e : ety) : Z := nwords e * wsize e.

(** The words of an element. *)
Definition wordOf (e : ety) : elem e -> Z -> Z :=
  match e as e return elem e -> Z -> Z with
  | TS | TLenS => fun x k => if k =? 0 then sptr x else blen (sbytes x)
  | TB => fun x k => if k =? 0 then bptr x else if k =? 1 then blen (bbytes x) else bcap x
  | TLenB => fun x k => if k =? 0 then aptr x else if k =? 1 then alen x else acap x
  | _ => fun (x : Z) _ => x
  end.

(** The element with given words, in memory [W]. *)
Definition build (e : ety) (W : bytes) : (Z -> Z) -> elem e :=
  match e as e return (Z -> Z) -> elem e with
  | TS | TLenS => fun w => StrH (w 0) (span W (w 0) (w 1))
  | TB => fun w => SlcH (w 0) (w 2) (span W (w 0) (w 1))
  | TLenB => fun w => AnyH (w 0) (w 1) (w 2)
  | _ => fun w => w 0
  end.

(** The memory outside its own words that an element refers to and a comparison reads. *)
Definition refers (e : ety) : elem e -> Z -> Prop :=
  match e as e return elem e -> Z -> Prop with
  | TS | TLenS => fun x a => sptr x <= a < sptr x + blen (sbytes x)
  | TB => fun x a => bptr x <= a < bptr x + blen (bbytes x)
  | _ => fun _ _ => False
  end.

Definition peek (e : ety) (W : bytes) (a : Z) : elem e := build e W (fun k => load be (wsize e) W (a + k * wsize e)).

(** The [o]-th byte of an element. *)
Definition byteOf (e : ety) (x : elem e) (o : Z) : Z :=
  digit (wordOf e x (o / wsize e)) (pos be (wsize e) (o mod wsize e)).

(** A call: the element type as which the argument is sorted, NaNoption, address and length. *)
Record job := Job { jety : ety; jopt : Z; jbase : Z; jlen : Z }.

Definition jslice (j : job) : slice := Slice 0 (jlen j).

(** Memory as the call sees it: [peek], element by element. *)
Definition viewAs (j : job) (W : bytes) (x : Z) : elem (jety j) := peek (jety j) W (jbase j + x * esize (jety j)).

(** Its bytes, and the bytes that are those of one element. *)
Definition region (j : job) (a : Z) : Prop := jbase j <= a < jbase j + jlen j * esize (jety j).
Definition block (j : job) (x a : Z) : Prop := jbase j + x * esize (jety j) <= a < jbase j + (x + 1) * esize (jety j).

(** The memory that its elements refer to. *)
Definition heap (j : job) (W : bytes) (a : Z) : Prop := exists x, 0 <= x < jlen j /\ refers (jety j) (viewAs j W x) a.

(** [W] with the elements of the slice as in [m]. *)
Definition fill (j : job) (W : bytes) (m : Z -> elem (jety j)) (a : Z) : Z :=
  if (jbase j <=? a) && (a <? jbase j + jlen j * esize (jety j))
  then byteOf (jety j) (m ((a - jbase j) / esize (jety j))) ((a - jbase j) mod esize (jety j))
  else W a.

Variable tn : tuning.

(** The call when memory is [W]. *)
Definition jcall (j : job) (W : bytes) : call (elem (jety j)) := typedCall pl tn (jopt j) (jety j) (jslice j) (viewAs j W).

Definition jst (j : job) : Type := st (proc (keyT (jety j))) (elem (jety j)) unit.

(** As [phase] in Calls.v, recording the memory [W0] when the call began. *)
Inductive jphase (j : job) :=
| JIdle
| JBusy (W0 : bytes) (s : jst j)
| JOver (s : jst j).

(** Calls on slices of any types, beginning and ending at any time, in one memory and with one
    MaxGor.  A step of a call is a step of the machine of [Lang.v] on the elements as they are in
    memory now; what it wrote is put into memory.  What is being sorted, or referred to by what
    is being sorted, is left alone by others. *)
Inductive bworld (J : nat -> job) (M : Z) : bytes -> Z -> (forall i, jphase (J i)) -> Prop :=
| bw_start W mg : isBytes W -> 0 <= mg <= M -> bworld J M W mg (fun i => JIdle (J i))
| bw_call W mg S S' i : bworld J M W mg S -> S i = JIdle (J i) ->
    typedSlice pl (jety (J i)) (viewAs (J i) W) (jslice (J i)) ->
    sortable (jety (J i)) (jopt (J i)) (contents (viewAs (J i) W) (jslice (J i))) ->
    (forall a, region (J i) a -> heap (J i) W a -> False) ->
    (forall j W0 s a, S j = JBusy (J j) W0 s -> region (J j) a -> region (J i) a \/ heap (J i) W a -> False) ->
    (forall j W0 s a, S j = JBusy (J j) W0 s -> heap (J j) W0 a -> region (J i) a -> False) ->
    S' i = JBusy (J i) W (start (cProg (jcall (J i) W)) (viewAs (J i) W) mg) -> (forall j, j <> i -> S' j = S j) ->
    bworld J M W mg S'
| bw_busy W mg S S' i W0 s s' W' : bworld J M W mg S -> S i = JBusy (J i) W0 s ->
    pstep (procs pl tn (jety (J i))) (share s (viewAs (J i) W) mg) s' ->
    (forall a, W' a = fill (J i) W (mem (sh s')) a) ->
    S' i = JBusy (J i) W0 s' -> (forall j, j <> i -> S' j = S j) -> bworld J M W' mg S'
| bw_return W mg S S' i W0 s : bworld J M W mg S -> S i = JBusy (J i) W0 s -> returned s tt ->
    S' i = JOver (J i) s -> (forall j, j <> i -> S' j = S j) -> bworld J M W mg S'
| bw_over W mg S S' i s s' W' : bworld J M W mg S -> S i = JOver (J i) s ->
    pstep (procs pl tn (jety (J i))) (share s (viewAs (J i) W) mg) s' ->
    (forall a, W' a = fill (J i) W (mem (sh s')) a) ->
    S' i = JOver (J i) s' -> (forall j, j <> i -> S' j = S j) -> bworld J M W' mg S'
| bw_env W mg S W' mg' : bworld J M W mg S -> isBytes W' -> 0 <= mg' <= M ->
    (forall j W0 s a, S j = JBusy (J j) W0 s -> region (J j) a \/ heap (J j) W0 a -> W' a = W a) -> bworld J M W' mg' S.

End Layout.

(** ** Go's sizes (Go specification, "Size and alignment guarantees"; strings and slices as laid
    out by package reflect): of a value of type [t], in bytes, for the kinds that matter. *)
Inductive goSize (wb : Z) : rtype -> Z -> Prop :=
| size_word k : In k [2; 7; 12; 22; 26] -> goSize wb (ROther k) wb   (* Int Uint Uintptr Pointer UnsafePointer *)
| size_4 k : In k [5; 10; 13] -> goSize wb (ROther k) 4              (* Int32 Uint32 Float32 *)
| size_8 k : In k [6; 11; 14] -> goSize wb (ROther k) 8              (* Int64 Uint64 Float64 *)
| size_string : goSize wb (ROther 24) (2 * wb)
| size_slice t : goSize wb (RSlice t) (3 * wb).
