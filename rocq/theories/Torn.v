(** * Elements accessed in parts

    In [Lang.v] an access to an element is one step.  Go guarantees that for at most one machine
    word: strings and slice headers are two and three words, and on 32-bit platforms so are
    int64, uint64 and float64.  Here an element consists of [np] parts (words, bytes, ...), and an
    access takes place part by part, in any order, interleaved with everything else. *)

From Coq Require Import List ZArith Lia Bool Arith.
From Verif Require Import Lang.
Import ListNotations.
Open Scope Z_scope.

Section Torn.
Context {P T R V : Type}.
Variable np : nat.                     (* number of parts *)
Variable part : T -> nat -> V.         (* the parts of an element *)
Variable join : (nat -> V) -> T.       (* the element with given parts *)
Variable body : P -> cmd P T unit.

(** A goroutine, and the parts of the element it is accessing that it has already read or
    written. *)
Definition pend := nat -> option V.
Definition idle : pend := fun _ => None.
Definition pset (p : pend) (q : nat) (u : V) : pend := fun q' => if Nat.eqb q' q then Some u else p q'.

Record tst := TSt {
  tmain : cmd P T R * pend;
  tthr : list (cmd P T unit * pend);
  tmem : Z -> nat -> V;                (* cell, part *)
  tgor : Z; tmax : Z; tchans : Z       (* as in [shared] *)
}.

Definition mset (F : Z -> nat -> V) (i : Z) (q : nat) (u : V) : Z -> nat -> V :=
  fun j q' => if (j =? i) && Nat.eqb q' q then u else F j q'.

(** Steps of one goroutine; [n], [ch]: counter and number of channels. *)
Inductive tlocal {A} (mg : Z) : cmd P T A -> pend -> (Z -> nat -> V) -> Z -> Z ->
  cmd P T A -> pend -> (Z -> nat -> V) -> Z -> Z -> list (cmd P T unit) -> Prop :=
| tl_read c p F n ch i k q : view c = HRead i k -> (q < np)%nat -> p q = None ->
    tlocal mg c p F n ch c (pset p q (F i q)) F n ch []
| tl_read_done c p F n ch i k f : view c = HRead i k -> (forall q, (q < np)%nat -> p q = Some (f q)) ->
    tlocal mg c p F n ch (k (join f)) idle F n ch []
| tl_write c p F n ch i v k q : view c = HWrite i v k -> (q < np)%nat -> p q = None ->
    tlocal mg c p F n ch c (pset p q (part v q)) (mset F i q (part v q)) n ch []
| tl_write_done c p F n ch i v k : view c = HWrite i v k -> (forall q, (q < np)%nat -> p q <> None) ->
    tlocal mg c p F n ch k idle F n ch []
| tl_other c p F n ch m c' n' ch' fs :
    access c = None -> exec_local body c (Sh m n mg ch) = Some (c', Sh m n' mg ch', fs) ->
    tlocal mg c p F n ch c' idle F n' ch' fs.

(** Steps of the call, as [pstep]. *)
Inductive tstep : tst -> tst -> Prop :=
| ts_main c p ts F n mg ch c' p' F' n' ch' fs :
    tlocal mg c p F n ch c' p' F' n' ch' fs ->
    tstep (TSt (c, p) ts F n mg ch) (TSt (c', p') (ts ++ map (fun d => (d, idle)) fs) F' n' mg ch')
| ts_thr m l1 c p l2 F n mg ch c' p' F' n' ch' fs :
    tlocal mg c p F n ch c' p' F' n' ch' fs ->
    tstep (TSt m (l1 ++ (c, p) :: l2) F n mg ch) (TSt m (l1 ++ (c', p') :: l2 ++ map (fun d => (d, idle)) fs) F' n' mg ch')
| ts_to_main m pm l1 c p l2 F n mg ch v k k' : view c = HSend v k -> view m = HRecv k' ->
    tstep (TSt (m, pm) (l1 ++ (c, p) :: l2) F n mg ch) (TSt (k' v, idle) (l1 ++ (k, idle) :: l2) F n mg ch)
| ts_from_main m pm l1 c p l2 F n mg ch v k k' : view m = HSend v k -> view c = HRecv k' ->
    tstep (TSt (m, pm) (l1 ++ (c, p) :: l2) F n mg ch) (TSt (k, idle) (l1 ++ (k' v, idle) :: l2) F n mg ch)
| ts_thr_thr1 m l1 c1 p1 l2 c2 p2 l3 F n mg ch v k k' : view c1 = HSend v k -> view c2 = HRecv k' ->
    tstep (TSt m (l1 ++ (c1, p1) :: l2 ++ (c2, p2) :: l3) F n mg ch) (TSt m (l1 ++ (k, idle) :: l2 ++ (k' v, idle) :: l3) F n mg ch)
| ts_thr_thr2 m l1 c1 p1 l2 c2 p2 l3 F n mg ch v k k' : view c1 = HRecv k' -> view c2 = HSend v k ->
    tstep (TSt m (l1 ++ (c1, p1) :: l2 ++ (c2, p2) :: l3) F n mg ch) (TSt m (l1 ++ (k' v, idle) :: l2 ++ (k, idle) :: l3) F n mg ch)
| ts_stale_main m p ts F n mg ch k z : view m = HLoadGor k ->
    tstep (TSt (m, p) ts F n mg ch) (TSt (k z, idle) ts F n mg ch)
| ts_stale_thr m l1 c p l2 F n mg ch k z : view c = HLoadGor k ->
    tstep (TSt m (l1 ++ (c, p) :: l2) F n mg ch) (TSt m (l1 ++ (k z, idle) :: l2) F n mg ch).

(** Executions; the environment as in [exec]. *)
Inductive trun (M : Z) (Rg : Z -> Prop) : nat -> tst -> tst -> Prop :=
| trun_refl s : trun M Rg 0 s s
| trun_prog n s s1 s2 : trun M Rg n s s1 -> tstep s1 s2 -> trun M Rg (S n) s s2
| trun_env n s m ts F c mg ch F' mg' : trun M Rg n s (TSt m ts F c mg ch) -> 0 <= mg' <= M ->
    (forall i q, Rg i -> F' i q = F i q) -> trun M Rg n s (TSt m ts F' c mg' ch).

Definition tstart (c : cmd P T R) (F : Z -> nat -> V) (mg : Z) : tst := TSt (c, idle) [] F 0 mg 0.

Definition treturned (s : tst) (r : R) : Prop := view (fst (tmain s)) = HRet r.
Definition tpanicked (s : tst) : Prop :=
  view (fst (tmain s)) = HPanic \/ exists g, In g (tthr s) /\ view (fst g) = HPanic.

(** The accesses goroutines are in, each with the parts it has already dealt with. *)
Definition claim {A} (g : cmd P T A * pend) : option (Z * bool) * pend := (access (fst g), snd g).
Definition claims (s : tst) : list (option (Z * bool) * pend) := claim (tmain s) :: map claim (tthr s).

(** Two goroutines may access the same part of the same element next, one of them writing. *)
Definition tornRace (s : tst) : Prop :=
  exists i j x wi wj pi pj q, i <> j /\
    nth_error (claims s) i = Some (Some (x, wi), pi) /\ nth_error (claims s) j = Some (Some (x, wj), pj) /\
    (q < np)%nat /\ pi q = None /\ pj q = None /\ (wi = true \/ wj = true).

End Torn.

Arguments TSt {P T R V}. Arguments tmain {P T R V}. Arguments tthr {P T R V}. Arguments tmem {P T R V}.
Arguments tgor {P T R V}. Arguments tmax {P T R V}. Arguments tchans {P T R V}.
