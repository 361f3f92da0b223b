(** * Calls during which NaNoption is assigned to

    sortF4, sortF8, isSortedF4 and isSortedF8 read NaNoption up to twice.  A call for which the
    reads return different values acts like one for a single value; which one, is decided here.
    For NaNsmall followed by NaNlarge it is NaNignore. *)

From Coq Require Import List ZArith Lia Bool Permutation Sorted.
From Verif Require Import Lang Trace TraceFacts AnyFacts Scalar Typed Kinds Spec TypedCheck TypedFacts Calls Guarantee Forever TopFacts
  Witness Examples.
Import ListNotations.
Open Scope Z_scope.

(** The single value that has the same effect. *)
Definition acting (o1 o2 : Z) : Z := if o1 =? 1 then 1 else if o2 =? -1 then -1 else 0.

Lemma live_sort pl tn o1 o2 e s : sortLive pl tn o1 o2 e s = sortProg pl tn (acting o1 o2) e s.
Proof.
  unfold sortProg, sortLive, prepass, acting, NaNlarge, NaNsmall. destruct (isFloat e); [|reflexivity].
  destruct (o1 =? 1); [reflexivity|]. destruct (o2 =? -1); reflexivity.
Qed.

Lemma live_check pl o1 o2 e s : checkLive pl o1 o2 e s = checkProg pl (acting o1 o2) e s.
Proof.
  unfold checkProg, checkLive, isSortedF, acting, NaNlarge, NaNsmall. destruct (isFloat e); [|reflexivity].
  destruct (o1 =? 1); [reflexivity|]. destruct (o2 =? -1); reflexivity.
Qed.

Lemma live_reach pl tn o1 o2 e s m0 M k st : reach (liveCall pl tn o1 o2 e s m0) M k st <->
  reach (typedCall pl tn (acting o1 o2) e s m0) M k st.
Proof. unfold reach, liveCall, typedCall. cbn [cProcs cProg cInit cCells]. rewrite live_sort. tauto. Qed.

Lemma acting_one o1 o2 : In o1 [1; -1] -> In o2 [1; -1] -> ~ (o1 = -1 /\ o2 = 1) ->
  acting o1 o2 = o1.
Proof.
  intros [<-|[<-|[]]] [<-|[<-|[]]] H; try reflexivity. elim H. split; reflexivity.
Qed.

(** Any two values of {NaNlarge, NaNsmall}, except NaNsmall then NaNlarge: everything that holds
    for an unchanged option. *)
Lemma live_total pl tn o1 o2 e s m0 M k st : platOk pl -> tuningOk pl tn -> typedSlice pl e m0 s ->
  In o1 [1; -1] -> In o2 [1; -1] -> ~ (o1 = -1 /\ o2 = 1) ->
  let C := liveCall pl tn o1 o2 e s m0 in reach C M k st ->
  ~ panicked st /\ ~ race st /\ Z.of_nat k <= 100 * len s * len s + 6 * len s + 20 /\
  ((exists r, returned st r) \/ exists st', pstep (cProcs C) st st') /\
  (returned st tt -> Permutation (contents (mem (sh st)) s) (contents m0 s) /\
     inOrder e o1 (contents (mem (sh st)) s)).
Proof.
  intros Hpl Htn Hty H1 H2 H C HR. assert (HR' := proj1 (live_reach _ _ _ _ _ _ _ _ _ _) HR). rewrite (acting_one o1 o2 H1 H2 H) in HR'.
  assert (HS : sortable e o1 (contents m0 s)) by (destruct H1 as [<-|[<-|[]]]; [left|right; left]; reflexivity).
  exact (every_tuning pl tn Htn _ (typedCall pl tn o1 e s m0) M k st Hpl (call_typed pl tn e o1 s m0 Hty HS) HR').
Qed.

(** Slices without NaNs: whatever is assigned. *)
Lemma live_nanfree pl tn o1 o2 e s m0 M k st : platOk pl -> tuningOk pl tn -> typedSlice pl e m0 s ->
  Forall (fun y => ~ nan e y) (contents m0 s) ->
  let C := liveCall pl tn o1 o2 e s m0 in reach C M k st ->
  ~ panicked st /\ ~ race st /\ Z.of_nat k <= 100 * len s * len s + 6 * len s + 20 /\
  ((exists r, returned st r) \/ exists st', pstep (cProcs C) st st') /\
  (returned st tt -> Permutation (contents (mem (sh st)) s) (contents m0 s) /\
     StronglySorted (le e) (contents (mem (sh st)) s)).
Proof.
  intros Hpl Htn Hty HN C HR. apply (proj1 (live_reach _ _ _ _ _ _ _ _ _ _)) in HR.
  assert (HS : sortable e (acting o1 o2) (contents m0 s)) by (right; right; exact HN).
  destruct (every_tuning pl tn Htn _ (typedCall pl tn (acting o1 o2) e s m0) M k st Hpl (call_typed pl tn e _ s m0 Hty HS) HR) as (A & B & K & D & _).
  split; [exact A|]. split; [exact B|]. split; [exact K|]. split; [exact D|].
  intro Hr. exact (sorted_nanfree pl tn _ e s m0 M k st Hpl Htn Hty HN HR Hr).
Qed.

(** NaNs and any values: no harm. *)
Lemma live_no_harm pl tn o1 o2 e s m0 M k st : platOk pl -> tuningOk pl tn -> typedSlice pl e m0 s ->
  let C := liveCall pl tn o1 o2 e s m0 in reach C M k st ->
  ~ panicked st /\ (forall x w, In (Some (x, w)) (accesses st) -> cellsOf s x) /\
  ((exists r, returned st r) \/ exists st', pstep (cProcs C) st st') /\
  (returned st tt -> Permutation (contents (mem (sh st)) s) (contents m0 s) /\
     forall x w, ~ In (Some (x, w)) (accesses st)).
Proof.
  intros Hpl Htn Hty C HR. apply live_reach in HR.
  destruct (any_call pl tn _ e s m0 Hpl Htn Hty M k st HR) as (A & B & _ & _ & _ & _ & D & F).
  split; [exact A|]. split; [exact B|]. split; [exact D|]. exact F.
Qed.

(** NaNsmall then NaNlarge, on NaNs. *)
Lemma live_never_returns pl tn e s m0 M k st : isFloat e = true ->
  tuningOk pl tn -> maxLenIns tn < len s < intSize pl -> Forall (nan e) (contents m0 s) ->
  (len s < 2 * (maxLenRec tn + 1) \/ M <= 1) ->
  let C := liveCall pl tn (-1) 1 e s m0 in reach C M k st ->
  (forall r, ~ returned st r) /\ ~ panicked st /\ exists st', pstep (cProcs C) st st'.
Proof.
  intros He Ht Hs HN HM C HR. apply live_reach in HR.
  exact (nan_never_returns pl tn e 0 s m0 M k st He ltac:(lia) ltac:(lia) Ht Hs HN HM HR).
Qed.

(** The checkers. *)
Lemma live_checked pl tn o1 o2 e s m0 mg0 M k st r : platOk pl -> typedSlice pl e m0 s ->
  In e [TF4; TF8] -> In o1 [1; -1] -> In o2 [1; -1] -> ~ (o1 = -1 /\ o2 = 1) ->
  exec (procs pl tn e) M (cellsOf s) k (start (checkLive pl o1 o2 e s) m0 mg0) st -> returned st r ->
  checkSpecF e o1 s m0 r.
Proof.
  intros Hpl Hty He H1 H2 H HE. rewrite live_check, (acting_one o1 o2 H1 H2 H) in HE.
  exact (check_floats pl tn o1 e s m0 mg0 M k st r Hpl He Hty HE).
Qed.

Lemma live_check_safe pl tn o1 o2 e s m0 mg0 M k st : platOk pl -> typedSlice pl e m0 s ->
  exec (procs pl tn e) M (cellsOf s) k (start (checkLive pl o1 o2 e s) m0 mg0) st ->
  thr st = [] /\ chans (sh st) = 0 /\ Z.of_nat k <= 8 * len s + 16 /\ ~ panicked st /\
  (forall x w, In (Some (x, w)) (accesses st) -> w = false /\ cellsOf s x) /\
  (forall i, cellsOf s i -> mem (sh st) i = m0 i) /\
  ((exists r, returned st r) \/ exists st', pstep (procs pl tn e) st st').
Proof. rewrite live_check. exact (check_reach pl tn _ e s m0 mg0 M k st). Qed.

(** Two NaNs are in order for both options; IsSortedSlice denies it if the option is changed from
    NaNsmall to NaNlarge between the reads. *)
Definition nanPair : Z -> Z := fun _ => 9221120237041090561.

Lemma live_check_wrong : typedSlice plat64 TF8 nanPair (Slice 0 2) /\
  inOrder TF8 1 (contents nanPair (Slice 0 2)) /\ inOrder TF8 (-1) (contents nanPair (Slice 0 2)) /\
  exists k st, exec (procs plat64 shipped TF8) 1 (cellsOf (Slice 0 2)) k
    (start (checkLive plat64 (-1) 1 TF8 (Slice 0 2)) nanPair 1) st /\ returned st 1.
Proof.
  split; [apply (@typed_by TF8 nanPair (Slice 0 2) (inRange 64)); [simpl; lia|intros x H; apply inRange_spec in H; exact H|vm_compute; reflexivity]|].
  assert (N : Forall (nan TF8) (contents nanPair (Slice 0 2))).
  { repeat constructor; vm_compute; congruence. }
  split; [exists [], [], (contents nanPair (Slice 0 2))|split; [exists (contents nanPair (Slice 0 2)), [], []|]].
  - split; [reflexivity|]. split; [constructor|]. split; [constructor|]. split; [exact N|].
    split; [constructor|]. split; [reflexivity|discriminate].
  - split; [reflexivity|]. split; [exact N|]. split; [constructor|]. split; [constructor|].
    split; [constructor|]. split; [discriminate|reflexivity].
  - by_exec (procs plat64 shipped TF8) 1 (cellsOf (Slice 0 2)) 100 (start (checkLive plat64 (-1) 1 TF8 (Slice 0 2)) nanPair 1).
    apply isRetZ_returned. vm_compute. reflexivity.
Qed.

(** An execution with a change NaNlarge to NaNsmall in between. *)
Example ex_live : exists k st, reach (liveCall plat64 tiny 1 (-1) TF8 fSlice64 fMem64) 3 k st /\ returned st tt /\
  map nan64b (contents (mem (sh st)) fSlice64) = repeat false 51 ++ repeat true 9.
Proof.
  destruct ex_f64_last as (k & st & HR & Hr & _ & E & _). exists k, st.
  split; [apply live_reach; exact HR|]. split; [exact Hr|exact E].
Qed.
