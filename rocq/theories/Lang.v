(** * The modelling language and its concurrent machine

    The Go functions of /repo are written (in [Typed.v], [Lsw.v], ...) as values of
    type [cmd]: imperative programs over a shared array whose cells are addressed by
    integers.  This file gives the programs their meaning: a machine that interleaves
    the goroutines of ONE Sort*/IsSorted* call, with an arbitrary environment.

    What each construct models (Go side):
    - [Ret]/[Bind]           : sequencing, function results
    - [Loop]                 : for loops and label/goto control flow; no iteration bound
    - [Read]/[Write]         : one access to one element of the sorted collection
    - [Local]                : running code on a function-local array (the [sample]
                               array of pivotXX, e.g. sortyI4.go:60-65)
    - [Call]/[InCall]        : a call of a recursive procedure and its active stack frame
    - [Fork]                 : a [go f(args)] statement
    - [LoadMax]              : reading the global MaxGor (sorty.go:31, 90)
    - [LoadGor]              : plain read of sv.nGor (sorty.go:91)
    - [AddGor]               : atomic.AddUint64(&sv.nGor, d), returns the new value
    - [MakeSv]               : sv := syncVar{1, make(chan int)} (e.g. sortyI4.go:337-338)
    - [Send]/[Recv]          : ch <- v and <-ch on the call's one unbuffered channel
    - [Panic]                : a run-time panic (index / slice bounds out of range). *)

From Coq Require Import List ZArith Lia Bool.
Import ListNotations.
Open Scope Z_scope.

Inductive cmd (P T A : Type) : Type :=
| Ret (a : A)
| Panic
| Bind (B : Type) (c : cmd P T B) (k : B -> cmd P T A)
| Loop (S : Type) (s : S) (body : S -> cmd P T (S + A))
| Read (i : Z) (k : T -> cmd P T A)
| Write (i : Z) (v : T) (k : cmd P T A)
| Local (U : Type) (m : list U) (c : cmd P U unit) (k : list U -> cmd P T A)
| Call (p : P) (k : cmd P T A)
| InCall (c : cmd P T unit) (k : cmd P T A)
| Fork (p : P) (k : cmd P T A)
| LoadMax (k : Z -> cmd P T A)
| LoadGor (k : Z -> cmd P T A)
| AddGor (d : Z) (k : Z -> cmd P T A)
| MakeSv (k : cmd P T A)
| Send (v : Z) (k : cmd P T A)
| Recv (k : Z -> cmd P T A).

Arguments Ret {P T A} a.
Arguments Panic {P T A}.
Arguments Bind {P T A B} c k.
Arguments Loop {P T A S} s body.
Arguments Read {P T A} i k.
Arguments Write {P T A} i v k.
Arguments Local {P T A U} m c k.
Arguments Call {P T A} p k.
Arguments InCall {P T A} c k.
Arguments Fork {P T A} p k.
Arguments LoadMax {P T A} k.
Arguments LoadGor {P T A} k.
Arguments AddGor {P T A} d k.
Arguments MakeSv {P T A} k.
Arguments Send {P T A} v k.
Arguments Recv {P T A} k.

Declare Scope cmd_scope.
Delimit Scope cmd_scope with cmd.
Bind Scope cmd_scope with cmd.
Notation "x <- c ;; k" := (Bind c (fun x => k))
  (at level 61, c at next level, right associativity) : cmd_scope.
Notation "' p <- c ;; k" := (Bind c (fun x => match x with p => k end))
  (at level 61, p pattern, c at next level, right associativity) : cmd_scope.
Notation "c ;;; k" := (Bind c (fun _ => k))
  (at level 61, right associativity) : cmd_scope.
(** Inside a [Loop] body: jump back to the loop head with a new state / leave the loop. *)
Notation goto s := (Ret (inl s)).
Notation done a := (Ret (inr a)).

(** ** Next visible action of a program *)

Inductive head (P T A : Type) : Type :=
| HRet (a : A)
| HPanic
| HTau (c : cmd P T A)
| HRead (i : Z) (k : T -> cmd P T A)
| HWrite (i : Z) (v : T) (k : cmd P T A)
| HCall (p : P) (k : cmd P T unit -> cmd P T A)   (* [k callee_body]: resumed program *)
| HFork (p : P) (k : cmd P T A)
| HLoadMax (k : Z -> cmd P T A)
| HLoadGor (k : Z -> cmd P T A)
| HAddGor (d : Z) (k : Z -> cmd P T A)
| HMakeSv (k : cmd P T A)
| HSend (v : Z) (k : cmd P T A)
| HRecv (k : Z -> cmd P T A).

Arguments HRet {P T A} a.
Arguments HPanic {P T A}.
Arguments HTau {P T A} c.
Arguments HRead {P T A} i k.
Arguments HWrite {P T A} i v k.
Arguments HCall {P T A} p k.
Arguments HFork {P T A} p k.
Arguments HLoadMax {P T A} k.
Arguments HLoadGor {P T A} k.
Arguments HAddGor {P T A} d k.
Arguments HMakeSv {P T A} k.
Arguments HSend {P T A} v k.
Arguments HRecv {P T A} k.

(** [hcont f h]: put every continuation of [h] into the context [f] ([HRet] does not
    occur where this is used). *)
Definition hcont {P T A B} (f : cmd P T A -> cmd P T B) (h : head P T A) : head P T B :=
  match h with
  | HRet _ => HPanic
  | HPanic => HPanic
  | HTau c => HTau (f c)
  | HRead i k => HRead i (fun v => f (k v))
  | HWrite i v k => HWrite i v (f k)
  | HCall p k => HCall p (fun b => f (k b))
  | HFork p k => HFork p (f k)
  | HLoadMax k => HLoadMax (fun v => f (k v))
  | HLoadGor k => HLoadGor (fun v => f (k v))
  | HAddGor d k => HAddGor d (fun v => f (k v))
  | HMakeSv k => HMakeSv (f k)
  | HSend v k => HSend v (f k)
  | HRecv k => HRecv (fun v => f (k v))
  end.

(** Function-local arrays: Go bounds-checks every access. *)
Definition lget {U} (m : list U) (i : Z) : option U :=
  if (0 <=? i) && (i <? Z.of_nat (length m)) then nth_error m (Z.to_nat i) else None.

Fixpoint lupd {U} (m : list U) (n : nat) (v : U) : list U :=
  match m, n with
  | [], _ => []
  | _ :: m', O => v :: m'
  | x :: m', S n' => x :: lupd m' n' v
  end.

Definition lset {U} (m : list U) (i : Z) (v : U) : option (list U) :=
  if (0 <=? i) && (i <? Z.of_nat (length m)) then Some (lupd m (Z.to_nat i) v) else None.

Fixpoint view {P T A} (c : cmd P T A) {struct c} : head P T A :=
  match c with
  | Ret a => HRet a
  | Panic => HPanic
  | Bind c k =>
      match view c with
      | HRet a => view (k a)
      | h => hcont (fun c' => Bind c' k) h
      end
  | Loop s body =>
      HTau (Bind (body s) (fun r => match r with
                                    | inl s' => Loop s' body
                                    | inr a => Ret a
                                    end))
  | Read i k => HRead i k
  | Write i v k => HWrite i v k
  | Local m c k =>
      match view c with
      | HRet _ => HTau (k m)
      | HTau c' => HTau (Local m c' k)
      | HRead i kk => match lget m i with
                      | Some v => HTau (Local m (kk v) k)
                      | None => HPanic
                      end
      | HWrite i v kk => match lset m i v with
                         | Some m' => HTau (Local m' kk k)
                         | None => HPanic
                         end
      | _ => HPanic
      end
  | Call p k => HCall p (fun b => InCall b k)
  | InCall c k =>
      match view c with
      | HRet _ => HTau k
      | h => hcont (fun c' => InCall c' k) h
      end
  | Fork p k => HFork p k
  | LoadMax k => HLoadMax k
  | LoadGor k => HLoadGor k
  | AddGor d k => HAddGor d k
  | MakeSv k => HMakeSv k
  | Send v k => HSend v k
  | Recv k => HRecv k
  end.

(** Number of active frames of recursive procedures on the goroutine's stack. *)
Fixpoint depth {P T A} (c : cmd P T A) : nat :=
  match c with
  | Bind c _ => depth c
  | InCall c _ => S (depth c)
  | _ => O
  end.

(** ** Machine *)

Record shared (T : Type) := Sh {
  mem : Z -> T;        (* all memory cells of the element type *)
  ngor : Z;            (* sv.nGor, a uint64 *)
  maxg : Z;            (* MaxGor, a uint64 *)
  chans : Z            (* number of channels created so far by the call *)
}.
Arguments Sh {T}. Arguments mem {T}. Arguments ngor {T}. Arguments maxg {T}. Arguments chans {T}.

Definition upd {T} (m : Z -> T) (i : Z) (v : T) : Z -> T :=
  fun j => if j =? i then v else m j.

Definition two64 : Z := 2 ^ 64.

Record st (P T R : Type) := St {
  main : cmd P T R;               (* the goroutine that called Sort* *)
  thr : list (cmd P T unit);      (* goroutines started by the call *)
  sh : shared T
}.
Arguments St {P T R}. Arguments main {P T R}. Arguments thr {P T R}. Arguments sh {P T R}.

Section Machine.
Context {P T R : Type}.
Variable body : P -> cmd P T unit.   (* procedure table *)

(** One non-blocking step of one goroutine: new code, new shared state, started
    goroutines.  [None]: returned, panicked, or waiting on the channel. *)
Definition exec_local {A} (c : cmd P T A) (s : shared T)
  : option (cmd P T A * shared T * list (cmd P T unit)) :=
  match view c with
  | HTau c' => Some (c', s, [])
  | HRead i k => Some (k (mem s i), s, [])
  | HWrite i v k => Some (k, Sh (upd (mem s) i v) (ngor s) (maxg s) (chans s), [])
  | HCall p k => Some (k (body p), s, [])
  | HFork p k => Some (k, s, [body p])
  | HLoadMax k => Some (k (maxg s), s, [])
  | HLoadGor k => Some (k (ngor s), s, [])
  | HAddGor d k => let n := (ngor s + d) mod two64 in
                   Some (k n, Sh (mem s) n (maxg s) (chans s), [])
  | HMakeSv k => Some (k, Sh (mem s) 1 (maxg s) (chans s + 1), [])
  | _ => None
  end.

(** A program step of the call, reads returning the current value. *)
Inductive istep : st P T R -> st P T R -> Prop :=
| step_main m ts s m' s' fs :
    exec_local m s = Some (m', s', fs) ->
    istep (St m ts s) (St m' (ts ++ fs) s')
| step_thr m l1 c l2 s c' s' fs :
    exec_local c s = Some (c', s', fs) ->
    istep (St m (l1 ++ c :: l2) s) (St m (l1 ++ c' :: l2 ++ fs) s')
| step_to_main m l1 c l2 s v k k' :       (* a goroutine sends, the caller receives *)
    view c = HSend v k -> view m = HRecv k' ->
    istep (St m (l1 ++ c :: l2) s) (St (k' v) (l1 ++ k :: l2) s)
| step_from_main m l1 c l2 s v k k' :     (* the caller sends, a goroutine receives *)
    view m = HSend v k -> view c = HRecv k' ->
    istep (St m (l1 ++ c :: l2) s) (St k (l1 ++ k' v :: l2) s)
| step_thr_thr1 m l1 c1 l2 c2 l3 s v k k' :
    view c1 = HSend v k -> view c2 = HRecv k' ->
    istep (St m (l1 ++ c1 :: l2 ++ c2 :: l3) s) (St m (l1 ++ k :: l2 ++ k' v :: l3) s)
| step_thr_thr2 m l1 c1 l2 c2 l3 s v k k' :
    view c1 = HRecv k' -> view c2 = HSend v k ->
    istep (St m (l1 ++ c1 :: l2 ++ c2 :: l3) s) (St m (l1 ++ k' v :: l2 ++ k :: l3) s).

(** A program step of the call.  The read of the goroutine counter in gorFull
    (sorty.go:86-92) is a plain one, unsynchronised with the atomic additions to the
    counter: it may return anything (under the Go memory model, some outdated value). *)
Inductive pstep : st P T R -> st P T R -> Prop :=
| step_now s s' : istep s s' -> pstep s s'
| step_stale_main m ts s k z :
    view m = HLoadGor k -> pstep (St m ts s) (St (k z) ts s)
| step_stale_thr m l1 c l2 s k z :
    view c = HLoadGor k -> pstep (St m (l1 ++ c :: l2) s) (St m (l1 ++ k z :: l2) s).

(** An environment step: anybody may set MaxGor to any value in [0,M], and change any
    cell outside the region [Rg] being sorted. *)
Inductive estep (M : Z) (Rg : Z -> Prop) : st P T R -> st P T R -> Prop :=
| env_step m ts s mem' mg' :
    0 <= mg' <= M -> (forall i, Rg i -> mem' i = mem s i) ->
    estep M Rg (St m ts s) (St m ts (Sh mem' (ngor s) mg' (chans s))).

(** [exec M Rg n s s']: from [s] to [s'] with [n] program steps and any number of
    environment steps in between. *)
Inductive exec (M : Z) (Rg : Z -> Prop) : nat -> st P T R -> st P T R -> Prop :=
| exec_refl s : exec M Rg 0 s s
| exec_prog n s s1 s2 : exec M Rg n s s1 -> pstep s1 s2 -> exec M Rg (S n) s s2
| exec_env n s s1 s2 : exec M Rg n s s1 -> estep M Rg s1 s2 -> exec M Rg n s s2.

(** Executions in which the counter is always read up to date. *)
Inductive fexec (M : Z) (Rg : Z -> Prop) : nat -> st P T R -> st P T R -> Prop :=
| fexec_refl s : fexec M Rg 0 s s
| fexec_prog n s s1 s2 : fexec M Rg n s s1 -> istep s1 s2 -> fexec M Rg (S n) s s2
| fexec_env n s s1 s2 : fexec M Rg n s s1 -> estep M Rg s1 s2 -> fexec M Rg n s s2.

Lemma fexec_exec M Rg n s s' : fexec M Rg n s s' -> exec M Rg n s s'.
Proof.
  induction 1; [constructor|eapply exec_prog; eauto using step_now|eapply exec_env; eauto].
Qed.

(** The state in which the call starts. *)
Definition start (c : cmd P T R) (m0 : Z -> T) (mg0 : Z) : st P T R :=
  St c [] (Sh m0 0 mg0 0).

(** ** Observations *)

Definition returned (s : st P T R) (r : R) : Prop := view (main s) = HRet r.

Definition panicked (s : st P T R) : Prop :=
  view (main s) = HPanic \/ exists c, In c (thr s) /\ view c = HPanic.

(** The memory access a goroutine is about to perform: cell, and whether it writes. *)
Definition access {A} (c : cmd P T A) : option (Z * bool) :=
  match view c with
  | HRead i _ => Some (i, false)
  | HWrite i _ _ => Some (i, true)
  | _ => None
  end.

Definition accesses (s : st P T R) : list (option (Z * bool)) :=
  access (main s) :: map access (thr s).

(** Two goroutines about to access one cell, at least one of them writing. *)
Definition race (s : st P T R) : Prop :=
  exists i j x wi wj, i <> j /\
    nth_error (accesses s) i = Some (Some (x, wi)) /\
    nth_error (accesses s) j = Some (Some (x, wj)) /\
    (wi = true \/ wj = true).

(** A goroutine that is done with its work: it never touches memory, the counter or
    starts anything any more; at most it still signals / waits for a signal. *)
Inductive quiet {A} : cmd P T A -> Prop :=
| quiet_ret c a : view c = HRet a -> quiet c
| quiet_tau c c' : view c = HTau c' -> quiet c' -> quiet c
| quiet_send c v k : view c = HSend v k -> quiet k -> quiet c
| quiet_recv c k : view c = HRecv k -> (forall v, quiet (k v)) -> quiet c.

(** A goroutine that only has to exit: no memory access, no communication. *)
Inductive exiting {A} : cmd P T A -> Prop :=
| exiting_ret c a : view c = HRet a -> exiting c
| exiting_tau c c' : view c = HTau c' -> exiting c' -> exiting c.

(** ** Executable scheduler (used for examples and counterexamples) *)

Inductive choice := CMain | CThr (i : nat) | CToMain (i : nat).

Fixpoint split_at {X} (n : nat) (l : list X) {struct l} : option (list X * X * list X) :=
  match l, n with
  | [], _ => None
  | x :: l', O => Some ([], x, l')
  | x :: l', S n' => match split_at n' l' with
                     | Some (l1, y, l2) => Some (x :: l1, y, l2)
                     | None => None
                     end
  end.

Definition run1 (ch : choice) (s : st P T R) : option (st P T R) :=
  match ch with
  | CMain => match exec_local (main s) (sh s) with
             | Some (m', s', fs) => Some (St m' (thr s ++ fs) s')
             | None => None
             end
  | CThr i => match split_at i (thr s) with
              | Some (l1, c, l2) =>
                  match exec_local c (sh s) with
                  | Some (c', s', fs) => Some (St (main s) (l1 ++ c' :: l2 ++ fs) s')
                  | None => None
                  end
              | None => None
              end
  | CToMain i => match split_at i (thr s) with
                 | Some (l1, c, l2) =>
                     match view c, view (main s) with
                     | HSend v k, HRecv k' => Some (St (k' v) (l1 ++ k :: l2) (sh s))
                     | _, _ => None
                     end
                 | None => None
                 end
  end.

Fixpoint run (chs : list choice) (s : st P T R) : option (st P T R) :=
  match chs with
  | [] => Some s
  | ch :: chs' => match run1 ch s with Some s' => run chs' s' | None => None end
  end.

(** Let one goroutine run until it blocks/returns or [fuel] steps are done. *)
Fixpoint run_while (fuel : nat) (ch : choice) (s : st P T R) : st P T R :=
  match fuel with
  | O => s
  | S f => match run1 ch s with Some s' => run_while f ch s' | None => s end
  end.

Lemma split_at_app {X} n (l l1 : list X) x l2 :
  split_at n l = Some (l1, x, l2) -> l = l1 ++ x :: l2.
Proof.
  revert n l1; induction l as [|y l IH]; intros n l1 H; simpl in H; [discriminate|].
  destruct n as [|n].
  - inversion H; subst; reflexivity.
  - destruct (split_at n l) as [[[a b] c]|] eqn:E; [|discriminate].
    inversion H; subst. rewrite (IH n a E). reflexivity.
Qed.

Lemma run1_istep ch s s' : run1 ch s = Some s' -> istep s s'.
Proof.
  destruct s as [m ts s]. destruct ch as [|i|i]; simpl.
  - destruct (exec_local m s) as [[[m' s''] fs]|] eqn:E; [|discriminate].
    intro H; inversion H; subst. apply step_main; assumption.
  - destruct (split_at i ts) as [[[l1 c] l2]|] eqn:Es; [|discriminate].
    destruct (exec_local c s) as [[[c' s''] fs]|] eqn:E; [|discriminate].
    intro H; inversion H; subst. rewrite (split_at_app _ _ _ _ _ Es).
    apply step_thr; assumption.
  - destruct (split_at i ts) as [[[l1 c] l2]|] eqn:Es; [|discriminate].
    destruct (view c) eqn:Ec; try discriminate.
    destruct (view m) eqn:Em; try discriminate.
    intro H; inversion H; subst. rewrite (split_at_app _ _ _ _ _ Es).
    eapply step_to_main; eassumption.
Qed.

Lemma run1_pstep ch s s' : run1 ch s = Some s' -> pstep s s'.
Proof. intro H. apply step_now. eapply run1_istep; exact H. Qed.

Lemma exec_trans M Rg n s s1 k s2 :
  exec M Rg n s s1 -> exec M Rg k s1 s2 -> exec M Rg (k + n) s s2.
Proof.
  intros H1 H2; induction H2; simpl.
  - assumption.
  - eapply exec_prog; eauto.
  - eapply exec_env; eauto.
Qed.

Lemma fexec_trans M Rg n s s1 k s2 :
  fexec M Rg n s s1 -> fexec M Rg k s1 s2 -> fexec M Rg (k + n) s s2.
Proof.
  intros H1 H2; induction H2; simpl.
  - assumption.
  - eapply fexec_prog; eauto.
  - eapply fexec_env; eauto.
Qed.

Lemma run_exec M Rg chs s s' : run chs s = Some s' -> exists n, exec M Rg n s s'.
Proof.
  revert s; induction chs as [|ch chs IH]; intros s H; simpl in H.
  - inversion H; subst. exists O; constructor.
  - destruct (run1 ch s) as [s1|] eqn:E; [|discriminate].
    destruct (IH s1 H) as [n Hn].
    exists (n + 1)%nat. eapply exec_trans; [|exact Hn].
    eapply exec_prog; [constructor|]. eapply run1_pstep; eassumption.
Qed.

Lemma run_while_fexec M Rg f ch s : exists n, fexec M Rg n s (run_while f ch s).
Proof.
  revert s; induction f as [|f IH]; intros s; simpl.
  - exists O; constructor.
  - destruct (run1 ch s) as [s1|] eqn:E.
    + destruct (IH s1) as [n Hn]. exists (n + 1)%nat. eapply fexec_trans; [|exact Hn].
      eapply fexec_prog; [constructor|]. eapply run1_istep; eassumption.
    + exists O; constructor.
Qed.

Lemma run_while_exec M Rg f ch s : exists n, exec M Rg n s (run_while f ch s).
Proof. destruct (run_while_fexec M Rg f ch s) as [n Hn]. exists n. apply fexec_exec, Hn. Qed.

End Machine.
