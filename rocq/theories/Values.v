(** * For integers the order is not enough

    C61 does not hold for integers: the mean functions (sixb) see the values.  Two slices of 80 uint64 that are ordered alike, and
    an execution of the one call that the other does not have. *)

From Coq Require Import List ZArith Lia Bool.
From Verif Require Import Lang Kinds Typed Trace Spec Calls Witness Examples Cross CrossEx.
Import ListNotations.
Open Scope Z_scope.

Section Alone.
Context {P T R : Type}.
Variable body : P -> cmd P T unit.
Variable inside : Z -> bool.

(** One step of a call that has one goroutine and reads neither MaxGor nor the counter of goroutines nor cells outside. *)
Definition next (x : cmd P T R * (Z -> T)) : option (cmd P T R * (Z -> T)) :=
  let '(c, m) := x in
  match view c with
  | HTau c' => Some (c', m)
  | HRead i k => if inside i then Some (k (m i), m) else None
  | HWrite i v k => Some (k, upd m i v)
  | HCall p k => Some (k (body p), m)
  | _ => None
  end.

Fixpoint after (n : nat) (x : cmd P T R * (Z -> T)) : option (list event * (cmd P T R * (Z -> T))) :=
  match n with
  | O => Some ([], x)
  | S n => match next x with
           | Some y => match after n y with Some (l, z) => Some (label 0 0 (fst x) :: l, z) | None => None end
           | None => None
           end
  end.

Lemma after_last n : forall x l z, after (S n) x = Some (l, z) ->
  exists l' y, after n x = Some (l', y) /\ next y = Some z /\ l = l' ++ [label 0 0 (fst y)].
Proof.
  induction n as [|n IH]; intros x l z H.
  - simpl in H. destruct (next x) eqn:N; [|discriminate]. injection H as <- <-. exists [], x. auto.
  - change (after (S (S n)) x) with
      (match next x with Some y => match after (S n) y with Some (l, z) => Some (label 0 0 (fst x) :: l, z) | None => None end | None => None end) in H.
    destruct (next x) as [y|] eqn:N; [|discriminate]. destruct (after (S n) y) as [[l1 z1]|] eqn:A; [|discriminate].
    injection H as <- <-. destruct (IH _ _ _ A) as (l' & w & B & C & ->). exists (label 0 0 (fst x) :: l'), w.
    simpl. rewrite N, B. auto.
Qed.

Lemma after_less n : forall x l z, after n x = Some (l, z) -> forall k, (k <= n)%nat -> exists y, after k x = Some (firstn k l, y).
Proof.
  induction n as [|n IH]; intros x l z H [|k] L; try lia; try (simpl; eauto; fail).
  simpl in H |- *. destruct (next x); [|discriminate]. destruct (after n p) as [[l1 z1]|] eqn:A; [|discriminate].
  injection H as <- <-. destruct (IH _ _ _ A k) as [y B]; [lia|]. rewrite B. simpl. eauto.
Qed.

Lemma after_length n : forall x l z, after n x = Some (l, z) -> length l = n.
Proof.
  induction n as [|n IH]; intros x l z H; simpl in H; [injection H as <- <-; reflexivity|].
  destruct (next x); [|discriminate]. destruct (after n p) as [[l1 z1]|] eqn:A; [|discriminate].
  injection H as <- <-. simpl. f_equal. eauto.
Qed.

(** There is such an execution. *)
Lemma after_texec M Rg mg n : forall x l z, after n x = Some (l, z) ->
  texec body M Rg l (start (fst x) (snd x) mg) (start (fst z) (snd z) mg).
Proof.
  induction n as [|n IH]; intros x l z H; [injection H as <- <-; apply texec_refl|].
  apply after_last in H. destruct H as (l' & [c m] & A & N & ->). eapply texec_prog; [exact (IH _ _ _ A)|].
  unfold start. cbn [fst snd]. pose proof (tstep_main body c [] (Sh m 0 mg 0)) as S. cbn [length] in S.
  unfold next in N. unfold exec_local in S.
  destruct (view c); try discriminate; try (destruct (inside i); [|discriminate]); injection N as <-; exact (S _ _ _ eq_refl).
Qed.

(** There is no other. *)
Lemma texec_after M (Rg : Z -> Prop) (s0 : st P T R) x tr s : (forall i, inside i = true -> Rg i) ->
  texec body M Rg tr s0 s -> thr s0 = [] -> main s0 = fst x -> (forall i, Rg i -> mem (sh s0) i = snd x i) ->
  forall n l z, after n x = Some (l, z) -> (length tr <= n)%nat ->
  exists y, after (length tr) x = Some (tr, y) /\ thr s = [] /\ main s = fst y /\ (forall i, Rg i -> mem (sh s) i = snd y i).
Proof.
  intros In H Ht Hm Hc n l z A. induction H as [s|tr e s s1 s2 H IH S|tr s s1 s2 H IH S]; intro L.
  - exists x. auto.
  - rewrite app_length in L. cbn [length] in L. destruct IH as (y & B & T1 & T2 & T3); auto; [lia|].
    rewrite app_length. cbn [length]. rewrite Nat.add_1_r.
    destruct (after_less _ _ _ _ A (Datatypes.S (length tr))) as [w W]; [lia|].
    destruct (after_last _ _ _ _ W) as (l' & y' & B' & N & E). rewrite B in B'. injection B' as <- <-.
    rewrite E in W. destruct y as [c m]. cbn [fst snd] in *. unfold next in N.
    inversion S; subst s1 s2; cbn [main thr sh] in *; try (exfalso; eapply app_cons_not_nil; symmetry; eassumption); subst.
    + cbn [length]. exists w. rewrite W. split; [reflexivity|]. unfold exec_local in *.
      destruct (view c); try discriminate; try (destruct (inside i) eqn:I; [|discriminate]);
        injection N as <-; match goal with K : Some _ = Some _ |- _ => injection K as <- <- <- end; cbn [fst snd app mem]; repeat split; auto.
      * rewrite (T3 _ (In _ I)). reflexivity.
      * intros j J. unfold upd. destruct (_ =? _); auto.
    + match goal with V : view c = _ |- _ => rewrite V in N; discriminate end.
  - destruct IH as (y & B & T1 & T2 & T3); auto. exists y. inversion S; subst s1 s2. cbn [main thr sh mem] in *.
    repeat split; auto. intros i I. match goal with K : forall i, Rg i -> _ |- _ => rewrite (K i I) end. auto.
Qed.

Lemma texec_only M (Rg : Z -> Prop) c m mg tr s n l z : (forall i, inside i = true -> Rg i) ->
  texec body M Rg tr (start c m mg) s -> after n (c, m) = Some (l, z) -> length tr = n -> tr = l.
Proof.
  intros In H A L. destruct (texec_after _ _ _ (c, m) _ _ In H eq_refl eq_refl (fun _ _ => eq_refl) _ _ _ A) as (y & B & _); [lia|].
  rewrite L, A in B. injection B as -> _. reflexivity.
Qed.

End Alone.

(** 80 different numbers, and their fourth powers. *)
Definition evenSlice : slice := Slice 0 80.
Definition evenMem (i : Z) : Z := (i * 37) mod 80.
Definition steepMem (i : Z) : Z := evenMem i ^ 4.
Definition valCall (m : Z -> Z) : call Z := typedCall plat64 shipped 1 TU8 evenSlice m.
Definition valInside (i : Z) : bool := (0 <=? i) && (i <? 80).
Definition valRun (m : Z -> Z) (n : nat) := after (cProcs (valCall m)) valInside n (cProg (valCall m), m).

(** The cell an event reads or writes. *)
Definition cellOf (e : event) : Z := match e with EvRead _ i => i | EvWrite _ i => i | _ => -1 end.

(** The steps until the first call returns, and as many steps of the second. *)
Definition valSteps : nat := 2986.

Lemma val_runs : exists n l1 z1 l2 z2, valRun evenMem n = Some (l1, z1) /\ view (fst z1) = HRet tt /\
  valRun steepMem n = Some (l2, z2) /\ l1 <> l2.
Proof.
  exists valSteps.
  assert (H : match valRun evenMem valSteps, valRun steepMem valSteps with
              | Some (l1, z1), Some (l2, _) =>
                  match view (fst z1) with HRet _ => if list_eq_dec Z.eq_dec (map cellOf l1) (map cellOf l2) then false else true | _ => false end
              | _, _ => false
              end = true) by (vm_compute; reflexivity).
  destruct (valRun evenMem valSteps) as [[l1 z1]|]; [|discriminate]. destruct (valRun steepMem valSteps) as [[l2 z2]|]; [|discriminate].
  exists l1, z1, l2, z2. destruct (view (fst z1)) as [[]| | | | | | | | | | | |]; try discriminate.
  destruct (list_eq_dec _ _ _) as [|N]; [discriminate|]. repeat split. intros ->. apply N. reflexivity.
Qed.

Lemma val_typed : typedSlice plat64 TU8 evenMem evenSlice /\ typedSlice plat64 TU8 steepMem evenSlice.
Proof.
  split.
  - apply (@typed_by TU8 evenMem evenSlice (inRange 64)); [simpl; lia|intros x H; apply inRange_spec in H; exact H|vm_compute; reflexivity].
  - apply (@typed_by TU8 steepMem evenSlice (inRange 64)); [simpl; lia|intros x H; apply inRange_spec in H; exact H|vm_compute; reflexivity].
Qed.

Lemma val_alike : orderedAlike TU8 TU8 evenMem steepMem evenSlice.
Proof.
  intros i j _ _. split; [reflexivity|]. intros _ _. cbn [le]. unfold steepMem.
  assert (B : forall k, 0 <= evenMem k) by (intro k; apply Z.mod_pos_bound; reflexivity).
  split; intro H; [apply Z.pow_le_mono_l; split; [apply B|exact H]|].
  apply Z.nlt_ge. intro K. pose proof (Z.pow_lt_mono_l _ _ 4 eq_refl (conj (B j) K)). lia.
Qed.

Theorem order_not_enough M : 0 <= M ->
  exists tr s1, traced (valCall evenMem) M tr s1 /\ returned s1 tt /\ forall s2, ~ traced (valCall steepMem) M tr s2.
Proof.
  intro HM. destruct val_runs as (n & l1 & z1 & l2 & z2 & A1 & V & A2 & N).
  exists l1, (start (fst z1) (snd z1) 0). split; [|split].
  - exists 0. split; [lia|]. exact (after_texec _ _ M (cCells (valCall evenMem)) 0 _ _ _ _ A1).
  - exact V.
  - intros s2 (mg & _ & H). assert (L : length l1 = n) by exact (after_length _ _ _ _ _ _ A1).
    assert (I : forall i, valInside i = true -> cCells (valCall steepMem) i).
    { intros i I. apply andb_true_iff in I. destruct I as [I J]. apply Z.leb_le in I. apply Z.ltb_lt in J. split; assumption. }
    exact (N (texec_only _ _ M _ _ _ mg _ _ _ _ _ I H A2 L)).
Qed.

Theorem order_refuted : forall M, 0 <= M -> exists s m1 m2 tr s1,
  typedSlice plat64 TU8 m1 s /\ typedSlice plat64 TU8 m2 s /\ orderedAlike TU8 TU8 m1 m2 s /\
  traced (typedCall plat64 shipped 1 TU8 s m1) M tr s1 /\ returned s1 tt /\
  forall s2, ~ traced (typedCall plat64 shipped 1 TU8 s m2) M tr s2.
Proof.
  intros M HM. destruct (order_not_enough M HM) as (tr & s1 & H & R & N). exists evenSlice, evenMem, steepMem, tr, s1.
  exact (conj (proj1 val_typed) (conj (proj2 val_typed) (conj val_alike (conj H (conj R N))))).
Qed.
