(** * Calls of the sorting API, as objects the properties quantify over *)

From Coq Require Import List ZArith Lia Bool Permutation Sorted.
From Verif Require Import Lang Trace Scalar Typed Kinds Spec Lsw.
Import ListNotations.
Open Scope Z_scope.

(** One call: its program and goroutine procedures, the cells of the collection it is
    given, the memory it starts in, the length of the collection, which tuning parameters
    (FC: for costly comparisons) apply, and what the memory should be in the end. *)
Record call (T : Type) := Call {
  cP : Type;
  cProcs : cP -> cmd cP T unit;
  cProg : cmd cP T unit;
  cCells : Z -> Prop;
  cInit : Z -> T;
  cLen : Z;
  cFC : bool;
  cGoal : (Z -> T) -> Prop        (* documented final state of the memory *)
}.
Arguments Call {T}. Arguments cP {T}. Arguments cProcs {T}. Arguments cProg {T}. Arguments cCells {T}.
Arguments cInit {T}. Arguments cLen {T}. Arguments cFC {T}. Arguments cGoal {T}.

(** [reach C M k s]: with MaxGor initially and always in [0,M] (but changing arbitrarily,
    as may the memory outside the collection), the call can get to state [s] by [k] steps of
    its goroutines. *)
Definition reach {T} (C : call T) (M : Z) (k : nat) (s : st (cP C) T unit) : Prop :=
  exists mg0, 0 <= mg0 <= M /\
    exec (cProcs C) M (cCells C) k (start (cProg C) (cInit C) mg0) s.

(** The same with MaxGor never below [m]. *)
Inductive kept {T} (C : call T) (m M : Z) : nat -> st (cP C) T unit -> Prop :=
| kept_start mg0 : m <= mg0 <= M -> kept C m M 0 (start (cProg C) (cInit C) mg0)
| kept_prog n s s' : kept C m M n s -> pstep (cProcs C) s s' -> kept C m M (S n) s'
| kept_env n s s' : kept C m M n s -> estep M (cCells C) s s' -> m <= maxg (sh s') -> kept C m M n s'.

(** The same if nobody gets an outdated value of the goroutine counter. *)
Definition fresh {T} (C : call T) (M : Z) (k : nat) (s : st (cP C) T unit) : Prop :=
  exists mg0, 0 <= mg0 <= M /\
    fexec (cProcs C) M (cCells C) k (start (cProg C) (cInit C) mg0) s.

(** The same with the trace of what the goroutines did. *)
Definition traced {T} (C : call T) (M : Z) (tr : list event) (s : st (cP C) T unit) : Prop :=
  exists mg0, 0 <= mg0 <= M /\
    texec (cProcs C) M (cCells C) tr (start (cProg C) (cInit C) mg0) s.

(** SortSlice / SortLen on a slice, after the dispatch. *)
Definition typedCall (pl : plat) (tn : tuning) (opt : Z) (e : ety) (s : slice) (m0 : Z -> elem e)
  : call (elem e) :=
  Call (proc (keyT e)) (procs pl tn e) (sortProg pl tn opt e s) (cellsOf s) m0 (len s)
    (match e with TS | TB => true | _ => false end)
    (fun w => Permutation (contents w s) (contents m0 s) /\ inOrder e opt (contents w s)).

(** The same while others assign to NaNoption: the first read of it (sortyF4.go:335) returns [o1],
    the second (sortyF4.go:350) [o2].  The goal is the caller's: NaNs at one of the ends they asked
    for. *)
Definition liveCall (pl : plat) (tn : tuning) (o1 o2 : Z) (e : ety) (s : slice) (m0 : Z -> elem e)
  : call (elem e) :=
  Call (proc (keyT e)) (procs pl tn e) (sortLive pl tn o1 o2 e s) (cellsOf s) m0 (len s)
    (match e with TS | TB => true | _ => false end)
    (fun w => Permutation (contents w s) (contents m0 s) /\
              (inOrder e o1 (contents w s) \/ inOrder e o2 (contents w s))).

(** Sort(n, lsw): [lt] is the caller's comparison, [cap] the size of their collection, [lq] the
    order they want their collection in. *)
Definition lswCallBy (pl : plat) (tn : tuning) {T} (lt lq : T -> T -> bool) (cap n : Z) (m0 : Z -> T)
  : call T :=
  Call lproc (lswBody (Wd := pword pl) lt cap tn (mI pl)) (lswSort (Wd := pword pl) lt cap tn (mI pl) n) (cellsOf (Slice 0 n)) m0 n true
    (fun w => Permutation (contents w (Slice 0 n)) (contents m0 (Slice 0 n)) /\
              noSmallerAfter lq (contents w (Slice 0 n))).

(** The documented use: the comparison is the order. *)
Definition lswCall (pl : plat) (tn : tuning) {T} (lt : T -> T -> bool) (cap n : Z) (m0 : Z -> T)
  : call T := lswCallBy pl tn lt lt cap n m0.

(** The calls the guarantees are about. *)
Inductive sortCall (pl : plat) (tn : tuning) : forall T, call T -> Prop :=
| call_typed e opt s m0 :
    typedSlice pl e m0 s -> sortable e opt (contents m0 s) ->
    sortCall pl tn (elem e) (typedCall pl tn opt e s m0)
| call_by T lt lq cap n m0 :
    consistent lt lq -> 0 <= n <= cap -> 11 * n + 18 < 10 * intSize pl ->
    sortCall pl tn T (lswCallBy pl tn lt lq cap n m0).
Arguments sortCall pl tn {T} C.

Lemma consistent_self {T} (lt : T -> T -> bool) : weakOrder lt -> consistent lt lt.
Proof.
  intros H. split; [|split; [exact H|split; [auto|apply H]]].
  intro x. destruct (lt x x) eqn:E; [|reflexivity]. rewrite (proj1 H x x E) in E. discriminate.
Qed.

(** Every irreflexive comparison is consistent with the order that separates nothing. *)
Lemma consistent_none {T} (lt : T -> T -> bool) : irreflexive lt -> consistent lt (fun _ _ => false).
Proof. intro H. split; [exact H|]. split; [split; auto|]. split; [discriminate|auto]. Qed.

Lemma call_lsw pl tn T lt cap n (m0 : Z -> T) :
  weakOrder lt -> 0 <= n <= cap -> 11 * n + 18 < 10 * intSize pl -> sortCall pl tn (lswCall pl tn lt cap n m0).
Proof. intros H. apply call_by, consistent_self, H. Qed.

(** Inputs with fewer elements are sorted by the caller alone. *)
Definition recLimit {T} (tn : tuning) (C : call T) : Z :=
  2 * ((if cFC C then maxLenRecFC tn else maxLenRec tn) + 1).

(** A goroutine that is (or may be) working: it will touch memory, the counter, or start
    another goroutine.  Index 0 is the caller. *)
Definition busy {P T R} (s : st P T R) (i : nat) : Prop :=
  match i with
  | O => ~ quiet (main s)
  | S i' => exists c, nth_error (thr s) i' = Some c /\ ~ quiet c
  end.

(** A goroutine about to add [d] to the goroutine counter. *)
Definition counts {P T A} (c : cmd P T A) (d : Z) : Prop := exists k, view c = HAddGor d k.

(** ** Two calls at the same time

    Both work in one memory and read one MaxGor; each has its own counter and channel.
    The environment may change MaxGor and the memory outside both collections. *)
Definition share {P T R} (s : st P T R) (w : Z -> T) (mg : Z) : st P T R :=
  St (main s) (thr s) (Sh w (ngor (sh s)) mg (chans (sh s))).

Inductive reach2 {T} (C1 C2 : call T) (M : Z) : st (cP C1) T unit -> st (cP C2) T unit -> Prop :=
| both_start m0 mg0 : 0 <= mg0 <= M ->
    (forall i, cCells C1 i -> m0 i = cInit C1 i) -> (forall i, cCells C2 i -> m0 i = cInit C2 i) ->
    reach2 C1 C2 M (start (cProg C1) m0 mg0) (start (cProg C2) m0 mg0)
| both_left s1 s2 s1' : reach2 C1 C2 M s1 s2 -> pstep (cProcs C1) s1 s1' ->
    reach2 C1 C2 M s1' (share s2 (mem (sh s1')) (maxg (sh s1')))
| both_right s1 s2 s2' : reach2 C1 C2 M s1 s2 -> pstep (cProcs C2) s2 s2' ->
    reach2 C1 C2 M (share s1 (mem (sh s2')) (maxg (sh s2'))) s2'
| both_env s1 s2 w mg : reach2 C1 C2 M s1 s2 -> 0 <= mg <= M ->
    (forall i, cCells C1 i \/ cCells C2 i -> w i = mem (sh s1) i) ->
    reach2 C1 C2 M (share s1 w mg) (share s2 w mg).

(** ** Any number of calls

    Calls begin and end at any time, in one memory and with one MaxGor; they are numbered. *)
Inductive phase (P T : Type) :=
| Idle                        (* not begun *)
| Busy (s : st P T unit)      (* begun; its caller has not moved on *)
| Over (s : st P T unit).     (* has returned to its caller, which has moved on *)
Arguments Idle {P T}. Arguments Busy {P T}. Arguments Over {P T}.

(** Memory, MaxGor, and the phase of each call.  (The copies of memory and MaxGor in the states of
    the calls are of no significance.)  A call begins on a collection that no call is busy with,
    maybe one that has been sorted before; what is not being sorted may change at any time. *)
Inductive world {T} (C : nat -> call T) (M : Z) : (Z -> T) -> Z -> (forall i, phase (cP (C i)) T) -> Prop :=
| world_start w mg : 0 <= mg <= M -> world C M w mg (fun _ => Idle)
| world_call w mg S S' i : world C M w mg S -> S i = Idle ->
    (forall x, cCells (C i) x -> w x = cInit (C i) x) ->
    (forall j s x, S j = Busy s -> cCells (C j) x -> cCells (C i) x -> False) ->
    S' i = Busy (start (cProg (C i)) w mg) -> (forall j, j <> i -> S' j = S j) -> world C M w mg S'
| world_busy w mg S S' i s s' : world C M w mg S -> S i = Busy s ->
    pstep (cProcs (C i)) (share s w mg) s' ->
    S' i = Busy s' -> (forall j, j <> i -> S' j = S j) -> world C M (mem (sh s')) mg S'
| world_return w mg S S' i s : world C M w mg S -> S i = Busy s -> returned s tt ->
    S' i = Over s -> (forall j, j <> i -> S' j = S j) -> world C M w mg S'
| world_over w mg S S' i s s' : world C M w mg S -> S i = Over s ->
    pstep (cProcs (C i)) (share s w mg) s' ->
    S' i = Over s' -> (forall j, j <> i -> S' j = S j) -> world C M (mem (sh s')) mg S'
| world_env w mg S w' mg' : world C M w mg S -> 0 <= mg' <= M ->
    (forall j s x, S j = Busy s -> cCells (C j) x -> w' x = w x) -> world C M w' mg' S.
