(** * Events of an execution and the happens-before order of the Go memory model

    The machine of [Lang.v] with every step labelled by what the goroutines involved do,
    and the order that the Go memory model (go.dev/ref/mem) puts on these events.

    Goroutine 0 is the caller of the sorting function; the goroutine started by the n-th go
    statement of the call is goroutine n. *)

From Coq Require Import List ZArith Lia Bool.
From Verif Require Import Lang.
Import ListNotations.
Open Scope Z_scope.

Inductive event :=
| EvStep (t : nat)                (* anything that is not one of the following *)
| EvRead (t : nat) (i : Z)        (* goroutine t reads element i *)
| EvWrite (t : nat) (i : Z)       (* goroutine t writes element i *)
| EvGo (t u : nat)                (* goroutine t starts goroutine u *)
| EvAtomic (t : nat)              (* goroutine t does atomic.AddUint64 on the counter *)
| EvComm (t u : nat).             (* goroutine t sends to goroutine u on the unbuffered channel *)

(** The goroutines that take part in an event. *)
Definition doneBy (e : event) (t : nat) : Prop :=
  match e with
  | EvStep t' | EvRead t' _ | EvWrite t' _ | EvGo t' _ | EvAtomic t' => t = t'
  | EvComm t1 t2 => t = t1 \/ t = t2
  end.

(** Happens-before on the positions of a trace.  A plain read of the goroutine counter
    (gorFull, sorty.go:86-92) and reading MaxGor synchronise nothing. *)
Inductive hb (tr : list event) : nat -> nat -> Prop :=
| hb_program i j ei ej t :        (* order of the statements of one goroutine *)
    (i < j)%nat -> nth_error tr i = Some ei -> nth_error tr j = Some ej ->
    doneBy ei t -> doneBy ej t -> hb tr i j
| hb_go i j t u ej :              (* a go statement, and what the new goroutine does *)
    (i < j)%nat -> nth_error tr i = Some (EvGo t u) -> nth_error tr j = Some ej ->
    doneBy ej u -> hb tr i j
| hb_atomic i j t u :             (* atomic operations on one variable *)
    (i < j)%nat -> nth_error tr i = Some (EvAtomic t) -> nth_error tr j = Some (EvAtomic u) ->
    hb tr i j
| hb_trans i j k : hb tr i j -> hb tr j k -> hb tr i k.

(** Event [e] accesses cell [x]; [w]: it writes. *)
Definition touches (e : event) (x : Z) (w : bool) : Prop :=
  (w = false /\ exists t, e = EvRead t x) \/ (w = true /\ exists t, e = EvWrite t x).

(** Two accesses to one cell, one of them a write, not ordered by happens-before. *)
Definition dataRace (tr : list event) : Prop :=
  exists i j ei ej x wi wj, (i < j)%nat /\
    nth_error tr i = Some ei /\ nth_error tr j = Some ej /\
    touches ei x wi /\ touches ej x wj /\ (wi = true \/ wj = true) /\ ~ hb tr i j.

(** Events of the caller alone: what it does before or after the call. *)
Definition callerOnly (l : list event) : Prop := Forall (fun e => forall t, doneBy e t -> t = O) l.

Section Traced.
Context {P T R : Type}.
Variable body : P -> cmd P T unit.

(** What goroutine [t] is about to do on its own, [n] goroutines being started so far. *)
Definition label {A} (t n : nat) (c : cmd P T A) : event :=
  match view c with
  | HRead i _ => EvRead t i
  | HWrite i _ _ => EvWrite t i
  | HFork _ _ => EvGo t (S n)
  | HAddGor _ _ => EvAtomic t
  | _ => EvStep t
  end.

(** The steps of [pstep], labelled. *)
Inductive tstep : event -> st P T R -> st P T R -> Prop :=
| tstep_main m ts s m' s' fs :
    exec_local body m s = Some (m', s', fs) ->
    tstep (label 0 (length ts) m) (St m ts s) (St m' (ts ++ fs) s')
| tstep_thr m l1 c l2 s c' s' fs :
    exec_local body c s = Some (c', s', fs) ->
    tstep (label (S (length l1)) (length (l1 ++ c :: l2)) c)
      (St m (l1 ++ c :: l2) s) (St m (l1 ++ c' :: l2 ++ fs) s')
| tstep_to_main m l1 c l2 s v k k' :
    view c = HSend v k -> view m = HRecv k' ->
    tstep (EvComm (S (length l1)) 0) (St m (l1 ++ c :: l2) s) (St (k' v) (l1 ++ k :: l2) s)
| tstep_from_main m l1 c l2 s v k k' :
    view m = HSend v k -> view c = HRecv k' ->
    tstep (EvComm 0 (S (length l1))) (St m (l1 ++ c :: l2) s) (St k (l1 ++ k' v :: l2) s)
| tstep_thr_thr1 m l1 c1 l2 c2 l3 s v k k' :
    view c1 = HSend v k -> view c2 = HRecv k' ->
    tstep (EvComm (S (length l1)) (S (length l1 + S (length l2))))
      (St m (l1 ++ c1 :: l2 ++ c2 :: l3) s) (St m (l1 ++ k :: l2 ++ k' v :: l3) s)
| tstep_thr_thr2 m l1 c1 l2 c2 l3 s v k k' :
    view c1 = HRecv k' -> view c2 = HSend v k ->
    tstep (EvComm (S (length l1 + S (length l2))) (S (length l1)))
      (St m (l1 ++ c1 :: l2 ++ c2 :: l3) s) (St m (l1 ++ k' v :: l2 ++ k :: l3) s)
| tstep_stale_main m ts s k z :
    view m = HLoadGor k -> tstep (EvStep 0) (St m ts s) (St (k z) ts s)
| tstep_stale_thr m l1 c l2 s k z :
    view c = HLoadGor k ->
    tstep (EvStep (S (length l1))) (St m (l1 ++ c :: l2) s) (St m (l1 ++ k z :: l2) s).

(** Executions with their traces; steps of the environment are not part of the trace. *)
Inductive texec (M : Z) (Rg : Z -> Prop) : list event -> st P T R -> st P T R -> Prop :=
| texec_refl s : texec M Rg [] s s
| texec_prog tr e s s1 s2 : texec M Rg tr s s1 -> tstep e s1 s2 -> texec M Rg (tr ++ [e]) s s2
| texec_env tr s s1 s2 : texec M Rg tr s s1 -> estep M Rg s1 s2 -> texec M Rg tr s s2.

Lemma tstep_pstep e s s' : tstep e s s' -> pstep body s s'.
Proof.
  intros []; try (apply step_now; econstructor; eassumption);
    [eapply step_stale_main|eapply step_stale_thr]; eassumption.
Qed.

Lemma pstep_tstep s s' : pstep body s s' -> exists e, tstep e s s'.
Proof.
  intros [s0 s1 []| |]; eexists;
    [eapply tstep_main|eapply tstep_thr|eapply tstep_to_main|eapply tstep_from_main|eapply tstep_thr_thr1
    |eapply tstep_thr_thr2|eapply tstep_stale_main|eapply tstep_stale_thr]; eassumption.
Qed.

(** The traced executions are the executions. *)
Lemma texec_exec M Rg tr s s' : texec M Rg tr s s' -> exec body M Rg (length tr) s s'.
Proof.
  induction 1.
  - constructor.
  - rewrite app_length. simpl. rewrite Nat.add_1_r. eapply exec_prog; [eassumption|].
    eapply tstep_pstep; eassumption.
  - eapply exec_env; eassumption.
Qed.

Lemma exec_texec M Rg k s s' : exec body M Rg k s s' -> exists tr, length tr = k /\ texec M Rg tr s s'.
Proof.
  induction 1.
  - exists []. split; [reflexivity|constructor].
  - destruct IHexec as (tr & E & HT). destruct (pstep_tstep _ _ H0) as (e & He).
    exists (tr ++ [e]). split; [rewrite app_length; simpl; lia|]. eapply texec_prog; eassumption.
  - destruct IHexec as (tr & E & HT). exists tr. split; [exact E|]. eapply texec_env; eassumption.
Qed.

End Traced.
