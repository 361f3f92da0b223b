(** * The schedule matters: C47's refutation *)

From Coq Require Import List ZArith Lia Bool Permutation.
From Verif Require Import Lang Calls Scalar Typed Kinds Spec Lsw Witness Results Examples.
Import ListNotations.
Open Scope Z_scope.

(** Runs with MaxGor constant, in which nobody else touches any memory and the goroutine counter is
    read up to date. *)
Inductive undisturbed {T} (C : call T) (m : Z) : nat -> st (cP C) T unit -> Prop :=
| un_start : undisturbed C m 0 (start (cProg C) (cInit C) m)
| un_step n s s' : undisturbed C m n s -> istep (cProcs C) s s' -> undisturbed C m (S n) s'.

Lemma undisturbed_reach {T} (C : call T) m k s : 0 <= m -> undisturbed C m k s -> reach C m k s.
Proof.
  intros Hm H. exists m. split; [lia|]. induction H as [|n s s' H IH Hs]; [constructor|].
  eapply exec_prog; [exact IH|apply step_now; exact Hs].
Qed.

(** Schedulers: the caller first, or the goroutines first. *)
Fixpoint callerFirst {P T R} (body : P -> cmd P T unit) (fuel : nat) (s : st P T R) : st P T R :=
  match fuel with
  | O => s
  | S f => match firstOf body (allChoices s) s with Some s' => callerFirst body f s' | None => s end
  end.
Fixpoint callerLast {P T R} (body : P -> cmd P T unit) (fuel : nat) (s : st P T R) : st P T R :=
  match fuel with
  | O => s
  | S f => match firstOf body (rev (allChoices s)) s with Some s' => callerLast body f s' | None => s end
  end.

Lemma firstOf_istep {P T R} (body : P -> cmd P T unit) chs (s s' : st P T R) : firstOf body chs s = Some s' -> istep body s s'.
Proof.
  induction chs as [|ch chs IH]; simpl; [discriminate|]. destruct (run1 body ch s) as [s1|] eqn:E; [|exact IH].
  intro H. inversion H; subst. eapply run1_istep; exact E.
Qed.

Lemma callerFirst_run {T} (C : call T) m f : forall k s, undisturbed C m k s -> exists k', undisturbed C m k' (callerFirst (cProcs C) f s).
Proof.
  induction f as [|f IH]; intros k s H; cbn [callerFirst]; [eauto|].
  destruct (firstOf (cProcs C) (allChoices s) s) as [s1|] eqn:E; [|eauto].
  apply (IH (S k)). eapply un_step; [exact H|eapply firstOf_istep; exact E].
Qed.

Lemma callerLast_run {T} (C : call T) m f : forall k s, undisturbed C m k s -> exists k', undisturbed C m k' (callerLast (cProcs C) f s).
Proof.
  induction f as [|f IH]; intros k s H; cbn [callerLast]; [eauto|].
  destruct (firstOf (cProcs C) (rev (allChoices s)) s) as [s1|] eqn:E; [|eauto].
  apply (IH (S k)). eapply un_step; [exact H|eapply firstOf_istep; exact E].
Qed.

(** Records with a key and a number, sorted by key: 120 records, 7 keys. *)
Definition byKey (x y : Z * Z) : bool := fst x <? fst y.
Definition recMem : Z -> Z * Z :=
  memOf (0, 0) 0 (map (fun i => ((Z.of_nat i * 37 + 11) mod 7, Z.of_nat i)) (seq 0 120)).
Definition recCall : call (Z * Z) := lswCall plat64 tiny byKey 120 120 recMem.

Lemma recCall_ok : sortCall plat64 tiny recCall.
Proof.
  apply call_lsw; [|lia|vm_compute; reflexivity]. split; unfold byKey.
  - intros x y H. apply Z.ltb_lt in H. apply Z.ltb_ge. lia.
  - intros x y z H. destruct (Z.ltb_spec (fst x) (fst y)), (Z.ltb_spec (fst y) (fst z)), (Z.ltb_spec (fst x) (fst z)); intuition lia.
Qed.

(** Strings of 7 lengths, sorted by length: 120 strings. *)
Definition lenMem : Z -> strh := memOf (StrH 0 []) 0
  (map (fun i => StrH (Z.of_nat i) (repeat 97 (Z.to_nat ((Z.of_nat i * 37 + 11) mod 7)))) (seq 0 120)).
Definition lenCall : call strh := typedCall plat64 tiny 1 TLenS (Slice 0 120) lenMem.

Lemma lenCall_ok : sortCall plat64 tiny lenCall.
Proof.
  refine (call_typed plat64 tiny TLenS 1 (Slice 0 120) lenMem _ (or_introl eq_refl)).
  apply (@typed_by TLenS lenMem (Slice 0 120) (fun x => shortL (sbytes x)));
    [simpl; lia|intros x H; apply Z.ltb_lt in H; exact H|vm_compute; reflexivity].
Qed.

(** Nothing but the order of the goroutines' steps differs; the results differ. *)
Lemma records_differ : exists k k' s s', undisturbed recCall 2 k s /\ undisturbed recCall 2 k' s' /\
  returned s tt /\ returned s' tt /\
  map snd (contents (mem (sh s)) (Slice 0 5)) = [26; 61; 5; 68; 47] /\
  map snd (contents (mem (sh s')) (Slice 0 5)) = [26; 61; 33; 12; 68].
Proof.
  destruct (callerFirst_run recCall 2 (Z.to_nat 100000) _ _ (un_start recCall 2)) as [k H].
  destruct (callerLast_run recCall 2 (Z.to_nat 100000) _ _ (un_start recCall 2)) as [k' H'].
  eexists k, k', _, _. split; [exact H|]. split; [exact H'|].
  split; [apply isRet_returned; vm_compute; reflexivity|]. split; [apply isRet_returned; vm_compute; reflexivity|].
  split; vm_compute; reflexivity.
Qed.

Lemma strings_differ : exists k k' s s', undisturbed lenCall 2 k s /\ undisturbed lenCall 2 k' s' /\
  returned s tt /\ returned s' tt /\
  map sptr (contents (mem (sh s)) (Slice 58 5)) = [38; 24; 115; 59; 31] /\
  map sptr (contents (mem (sh s')) (Slice 58 5)) = [94; 31; 38; 59; 101].
Proof.
  destruct (callerFirst_run lenCall 2 (Z.to_nat 100000) _ _ (un_start lenCall 2)) as [k H].
  destruct (callerLast_run lenCall 2 (Z.to_nat 100000) _ _ (un_start lenCall 2)) as [k' H'].
  eexists k, k', _, _. split; [exact H|]. split; [exact H'|].
  split; [apply isRet_returned; vm_compute; reflexivity|]. split; [apply isRet_returned; vm_compute; reflexivity|].
  split; vm_compute; reflexivity.
Qed.

(** The two results of each of the two calls differ in a cell of the collection. *)
Lemma records_apart : exists w w', outcome recCall w /\ outcome recCall w' /\ apart recCall w w'.
Proof.
  destruct records_differ as (k & k' & s & s' & H & H' & Hr & Hr' & E & E').
  exists (mem (sh s)), (mem (sh s')). split; [exists 2, k, s; eauto using undisturbed_reach, Z.le_0_2|].
  split; [exists 2, k', s'; eauto using undisturbed_reach, Z.le_0_2|].
  exists 2. split; [vm_compute; intuition congruence|]. intro X.
  apply (f_equal (fun l => nth 2 l 0)) in E, E'. change (snd (mem (sh s) 2) = 5) in E. change (snd (mem (sh s') 2) = 33) in E'.
  congruence.
Qed.

Lemma strings_apart : exists w w', outcome lenCall w /\ outcome lenCall w' /\ apart lenCall w w'.
Proof.
  destruct strings_differ as (k & k' & s & s' & H & H' & Hr & Hr' & E & E').
  exists (mem (sh s)), (mem (sh s')). split; [exists 2, k, s; eauto using undisturbed_reach, Z.le_0_2|].
  split; [exists 2, k', s'; eauto using undisturbed_reach, Z.le_0_2|].
  exists 58. split; [vm_compute; intuition congruence|]. intro X.
  apply (f_equal (fun l => nth 0 l 0)) in E, E'. change (sptr (mem (sh s) 58) = 38) in E. change (sptr (mem (sh s') 58) = 94) in E'.
  congruence.
Qed.

Lemma schedule_matters : exists pl tn T (C : call T) k s k' s' i, platOk pl /\ tuningOk pl tn /\ sortCall pl tn C /\
  undisturbed C 2 k s /\ returned s tt /\ undisturbed C 2 k' s' /\ returned s' tt /\
  cCells C i /\ mem (sh s) i <> mem (sh s') i.
Proof.
  destruct records_differ as (k & k' & s & s' & H & H' & Hr & Hr' & E & E').
  exists plat64, tiny, _, recCall, k, s, k', s', 2. split; [exact plat64_ok|]. split; [exact tiny_ok|].
  split; [exact recCall_ok|]. do 4 (split; [assumption|]). split; [vm_compute; intuition congruence|]. intro X.
  apply (f_equal (fun l => nth 2 l 0)) in E, E'. change (snd (mem (sh s) 2) = 5) in E. change (snd (mem (sh s') 2) = 33) in E'.
  congruence.
Qed.

Lemma ex_results : sortCall plat64 tiny recCall /\ (exists w w', outcome recCall w /\ outcome recCall w' /\ apart recCall w w') /\
  Z.max 1 (cLen recCall - (recLimit tiny recCall - 2)) = 78 /\
  sortCall plat64 tiny lenCall /\ (exists w w', outcome lenCall w /\ outcome lenCall w' /\ apart lenCall w w') /\
  exists k s, reach lenCall 1 k s /\ returned s tt.
Proof.
  split; [exact recCall_ok|]. split; [exact records_apart|]. split; [vm_compute; reflexivity|].
  split; [exact lenCall_ok|]. split; [exact strings_apart|].
  destruct (callerFirst_run lenCall 1 (Z.to_nat 100000) _ _ (un_start lenCall 1)) as [k H].
  exists k. eexists. split; [apply undisturbed_reach; [lia|exact H]|]. apply isRet_returned; vm_compute; reflexivity.
Qed.
