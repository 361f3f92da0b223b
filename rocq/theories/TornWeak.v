(** * Elements accessed in parts, under the Go memory model

    [Torn.v] has elements that are read and written part by part, each part being read as it was
    last written; [Weak.v] has reads that return any value the Go memory model (go.dev/ref/mem)
    allows, but of elements accessed at once.  Here both: "implementations may instead treat
    larger operations as a set of individual machine-word-sized operations in an unspecified order".

    Part [q] of element [x] is at location [x * np + q]. *)

From Coq Require Import List ZArith Lia Bool Arith.
From Verif Require Import Lang Trace Torn Weak.
Import ListNotations.
Open Scope Z_scope.

Definition place (np : nat) (x : Z) (q : nat) : Z := x * Z.of_nat np + Z.of_nat q.

(** The memory by location. *)
Definition flat {V} (np : nat) (F : Z -> nat -> V) : Z -> V :=
  fun y => F (y / Z.of_nat np) (Z.to_nat (y mod Z.of_nat np)).

Section TornWeak.
Context {P T R V : Type}.
Variable np : nat.
Variable part : T -> nat -> V.
Variable join : (nat -> V) -> T.
Variable body : P -> cmd P T unit.

Notation tst := (@tst P T R V).
Notation pend := (@pend V).

(** [tlocal] of Torn.v with what happens: goroutine [t], [k] goroutines being started so far. *)
Inductive elocal {A} (mg : Z) (t k : nat) : event -> cmd P T A -> pend -> (Z -> nat -> V) -> Z -> Z ->
  cmd P T A -> pend -> (Z -> nat -> V) -> Z -> Z -> list (cmd P T unit) -> Prop :=
| el_read c p F n ch i kk q : view c = HRead i kk -> (q < np)%nat -> p q = None ->
    elocal mg t k (EvRead t (place np i q)) c p F n ch c (pset p q (F i q)) F n ch []
| el_read_done c p F n ch i kk f : view c = HRead i kk -> (forall q, (q < np)%nat -> p q = Some (f q)) ->
    elocal mg t k (EvStep t) c p F n ch (kk (join f)) idle F n ch []
| el_write c p F n ch i v kk q : view c = HWrite i v kk -> (q < np)%nat -> p q = None ->
    elocal mg t k (EvWrite t (place np i q)) c p F n ch c (pset p q (part v q)) (mset F i q (part v q)) n ch []
| el_write_done c p F n ch i v kk : view c = HWrite i v kk -> (forall q, (q < np)%nat -> p q <> None) ->
    elocal mg t k (EvStep t) c p F n ch kk idle F n ch []
| el_other c p F n ch m c' n' ch' fs :
    access c = None -> exec_local body c (Sh m n mg ch) = Some (c', Sh m n' mg ch', fs) ->
    elocal mg t k (label t k c) c p F n ch c' idle F n' ch' fs.

(** [tstep] of Torn.v, labelled as [tstep] of Trace.v. *)
Inductive etstep : event -> tst -> tst -> Prop :=
| es_main e c p ts F n mg ch c' p' F' n' ch' fs :
    elocal mg 0 (length ts) e c p F n ch c' p' F' n' ch' fs ->
    etstep e (TSt (c, p) ts F n mg ch) (TSt (c', p') (ts ++ map (fun d => (d, idle)) fs) F' n' mg ch')
| es_thr e m l1 c p l2 F n mg ch c' p' F' n' ch' fs :
    elocal mg (S (length l1)) (length (l1 ++ (c, p) :: l2)) e c p F n ch c' p' F' n' ch' fs ->
    etstep e (TSt m (l1 ++ (c, p) :: l2) F n mg ch) (TSt m (l1 ++ (c', p') :: l2 ++ map (fun d => (d, idle)) fs) F' n' mg ch')
| es_to_main m pm l1 c p l2 F n mg ch v k k' : view c = HSend v k -> view m = HRecv k' ->
    etstep (EvComm (S (length l1)) 0)
      (TSt (m, pm) (l1 ++ (c, p) :: l2) F n mg ch) (TSt (k' v, idle) (l1 ++ (k, idle) :: l2) F n mg ch)
| es_from_main m pm l1 c p l2 F n mg ch v k k' : view m = HSend v k -> view c = HRecv k' ->
    etstep (EvComm 0 (S (length l1)))
      (TSt (m, pm) (l1 ++ (c, p) :: l2) F n mg ch) (TSt (k, idle) (l1 ++ (k' v, idle) :: l2) F n mg ch)
| es_thr_thr1 m l1 c1 p1 l2 c2 p2 l3 F n mg ch v k k' : view c1 = HSend v k -> view c2 = HRecv k' ->
    etstep (EvComm (S (length l1)) (S (length l1 + S (length l2))))
      (TSt m (l1 ++ (c1, p1) :: l2 ++ (c2, p2) :: l3) F n mg ch) (TSt m (l1 ++ (k, idle) :: l2 ++ (k' v, idle) :: l3) F n mg ch)
| es_thr_thr2 m l1 c1 p1 l2 c2 p2 l3 F n mg ch v k k' : view c1 = HRecv k' -> view c2 = HSend v k ->
    etstep (EvComm (S (length l1 + S (length l2))) (S (length l1)))
      (TSt m (l1 ++ (c1, p1) :: l2 ++ (c2, p2) :: l3) F n mg ch) (TSt m (l1 ++ (k' v, idle) :: l2 ++ (k, idle) :: l3) F n mg ch)
| es_stale_main m p ts F n mg ch k z : view m = HLoadGor k ->
    etstep (EvStep 0) (TSt (m, p) ts F n mg ch) (TSt (k z, idle) ts F n mg ch)
| es_stale_thr m l1 c p l2 F n mg ch k z : view c = HLoadGor k ->
    etstep (EvStep (S (length l1))) (TSt m (l1 ++ (c, p) :: l2) F n mg ch) (TSt m (l1 ++ (k z, idle) :: l2) F n mg ch).

(** Executions with their traces, each read of a part returning what was last written; the
    environment as in [trun]. *)
Inductive etexec (M : Z) (Rg : Z -> Prop) : list event -> tst -> tst -> Prop :=
| etexec_refl s : etexec M Rg [] s s
| etexec_prog tr e s s1 s2 : etexec M Rg tr s s1 -> etstep e s1 s2 -> etexec M Rg (tr ++ [e]) s s2
| etexec_env tr s m ts F c mg ch F' mg' : etexec M Rg tr s (TSt m ts F c mg ch) -> 0 <= mg' <= M ->
    (forall i q, Rg i -> F' i q = F i q) -> etexec M Rg tr s (TSt m ts F' c mg' ch).

(** The machine whose reads of parts return any value visible to them. *)
Record pst := Pst {
  pmain : cmd P T R * pend;
  pthr : list (cmd P T unit * pend);
  pgor : Z; pchans : Z;
  phist : history (T := V)
}.

Variable M : Z.
Variable Rg : Z -> Prop.
Variable F0 : Z -> nat -> V.          (* the parts of the elements when the call is made *)

(** A step: some goroutine does what it would do in *some* memory [F] and with some value [mg] of MaxGor;
    what it reads there is visible to it. *)
Inductive pwstep : pst -> pst -> Prop :=
| pwstep_in e m ts ng ch h F mg s' :
    0 <= mg <= M ->
    (forall t y, e = EvRead t y -> Rg (y / Z.of_nat np) -> visible (flat np F0) h e y (flat np F y)) ->
    etstep e (TSt m ts F ng mg ch) s' ->
    pwstep (Pst m ts ng ch h)
      (Pst (tmain s') (tthr s') (tgor s') (tchans s') (h ++ [(e, wrote e (flat np (tmem s')))])).

Inductive pwexec (c0 : cmd P T R) : pst -> Prop :=
| pwexec_start : pwexec c0 (Pst (c0, idle) [] 0 0 [])
| pwexec_step w w' : pwexec c0 w -> pwstep w w' -> pwexec c0 w'.

End TornWeak.

Arguments Pst {P T R V}. Arguments pmain {P T R V}. Arguments pthr {P T R V}.
Arguments pgor {P T R V}. Arguments pchans {P T R V}. Arguments phist {P T R V}.
