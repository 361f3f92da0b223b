(** * Sequential total-correctness logic

    [swp D n Rd Wr Q c v]: run alone on memory view [v], program [c] reads only cells of
    [Rd], writes only cells of [Wr], never panics, uses no goroutine/channel/counter
    operation, has call depth at most [D], finishes within [n] steps, and then [Q result
    (remaining steps) (final view)] holds. *)

From Coq Require Import List ZArith Lia Bool FinFun.
From Verif Require Import Lang.
Import ListNotations.
Open Scope Z_scope.

Section Seq.
Context {P T : Type}.
Variable body : P -> cmd P T unit.

Fixpoint swp (D n : nat) {A} (Rd Wr : Z -> Prop) (Q : A -> nat -> (Z -> T) -> Prop)
  (c : cmd P T A) (v : Z -> T) {struct n} : Prop :=
  (depth c <= D)%nat /\
  match view c with
  | HRet a => Q a n v
  | HTau c' => match n with O => False | S n' => swp D n' Rd Wr Q c' v end
  | HRead i k => match n with O => False | S n' => Rd i /\ swp D n' Rd Wr Q (k (v i)) v end
  | HWrite i x k => match n with O => False | S n' => Wr i /\ swp D n' Rd Wr Q k (upd v i x) end
  | HCall p k => match n with O => False | S n' => swp D n' Rd Wr Q (k (body p)) v end
  | _ => False
  end.

Lemma swp_eq D n {A} (Rd Wr : Z -> Prop) (Q : A -> nat -> (Z -> T) -> Prop) c v :
  swp D n Rd Wr Q c v =
  ((depth c <= D)%nat /\
  match view c with
  | HRet a => Q a n v
  | HTau c' => match n with O => False | S n' => swp D n' Rd Wr Q c' v end
  | HRead i k => match n with O => False | S n' => Rd i /\ swp D n' Rd Wr Q (k (v i)) v end
  | HWrite i x k => match n with O => False | S n' => Wr i /\ swp D n' Rd Wr Q k (upd v i x) end
  | HCall p k => match n with O => False | S n' => swp D n' Rd Wr Q (k (body p)) v end
  | _ => False
  end).
Proof. destruct n; reflexivity. Qed.

Lemma swp_use {A} D1 D n1 n (Rd1 Rd Wr1 Wr : Z -> Prop) (Q1 Q : A -> nat -> (Z -> T) -> Prop) c v :
  swp D1 n1 Rd1 Wr1 Q1 c v -> (D1 <= D)%nat -> (n1 <= n)%nat ->
  (forall i, Rd1 i -> Rd i) -> (forall i, Wr1 i -> Wr i) ->
  (forall a m v', (m <= n1)%nat -> Q1 a m v' -> Q a (m + (n - n1))%nat v') ->
  swp D n Rd Wr Q c v.
Proof.
  intros H HD Hn HR HW HQ.
  revert n c v H Hn HQ; induction n1 as [|n1 IH]; intros n c v H Hn HQ;
    rewrite swp_eq in H |- *; destruct H as [Hd H]; split; try lia.
  - destruct (view c); try contradiction. specialize (HQ a O v (le_n _) H).
    rewrite Nat.sub_0_r in HQ. exact HQ.
  - destruct n as [|n]; [lia|]. assert (E : (S n - S n1 = n - n1)%nat) by lia.
    destruct (view c); try contradiction.
    + specialize (HQ a (S n1) v (le_n _) H). replace (S n1 + (S n - S n1))%nat with (S n) in HQ by lia. exact HQ.
    + apply IH; [assumption|lia|]. intros b m v' Hm Hq. rewrite <- E. apply HQ; auto; lia.
    + destruct H as [H1 H2]; split; auto. apply IH; [assumption|lia|].
      intros b m v' Hm Hq. rewrite <- E. apply HQ; auto; lia.
    + destruct H as [H1 H2]; split; auto. apply IH; [assumption|lia|].
      intros b m v' Hm Hq. rewrite <- E. apply HQ; auto; lia.
    + apply IH; [assumption|lia|]. intros b m v' Hm Hq. rewrite <- E. apply HQ; auto; lia.
Qed.

Lemma swp_conseq {A} D n (Rd Wr : Z -> Prop) (Q1 Q : A -> nat -> (Z -> T) -> Prop) c v :
  swp D n Rd Wr Q1 c v -> (forall a m v', (m <= n)%nat -> Q1 a m v' -> Q a m v') ->
  swp D n Rd Wr Q c v.
Proof.
  intros H HQ. eapply swp_use; [exact H|lia|lia|auto|auto|].
  intros a m v' Hm Hq. replace (m + (n - n))%nat with m by lia. auto.
Qed.

Lemma swp_ret {A} D n (Rd Wr : Z -> Prop) (Q : A -> nat -> (Z -> T) -> Prop) a v :
  Q a n v -> swp D n Rd Wr Q (Ret a) v.
Proof. intro H. rewrite swp_eq. simpl. split; [lia|exact H]. Qed.

Lemma swp_bind {A B} D n (Rd Wr : Z -> Prop) (Q : A -> nat -> (Z -> T) -> Prop) (c : cmd P T B) k v :
  swp D n Rd Wr (fun b m v' => swp D m Rd Wr Q (k b) v') c v ->
  swp D n Rd Wr Q (Bind c k) v.
Proof.
  revert c v; induction n as [|n IH]; intros c v H; rewrite swp_eq in H |- *; simpl;
    destruct H as [Hd H]; split; try exact Hd; destruct (view c) eqn:E; simpl; try contradiction.
  - rewrite swp_eq in H. apply H.
  - rewrite swp_eq in H. apply H.
  - apply IH; exact H.
  - destruct H; split; auto.
  - destruct H; split; auto.
  - apply IH; exact H.
Qed.

Lemma swp_read {A} D n (Rd Wr : Z -> Prop) (Q : A -> nat -> (Z -> T) -> Prop) i k v :
  (0 < n)%nat -> Rd i -> swp D (n - 1) Rd Wr Q (k (v i)) v -> swp D n Rd Wr Q (Read i k) v.
Proof.
  intros Hn Hi H. rewrite swp_eq. simpl. split; [lia|]. destruct n as [|n]; [lia|].
  simpl in H. rewrite Nat.sub_0_r in H. auto.
Qed.

Lemma swp_write {A} D n (Rd Wr : Z -> Prop) (Q : A -> nat -> (Z -> T) -> Prop) i x k v :
  (0 < n)%nat -> Wr i -> swp D (n - 1) Rd Wr Q k (upd v i x) -> swp D n Rd Wr Q (Write i x k) v.
Proof.
  intros Hn Hi H. rewrite swp_eq. simpl. split; [lia|]. destruct n as [|n]; [lia|].
  simpl in H. rewrite Nat.sub_0_r in H. auto.
Qed.

Lemma swp_incall {A} D n (Rd Wr : Z -> Prop) (Q : A -> nat -> (Z -> T) -> Prop) c k v :
  swp D n Rd Wr (fun _ m v' => (0 < m)%nat /\ swp (S D) (m - 1) Rd Wr Q k v') c v ->
  swp (S D) n Rd Wr Q (InCall c k) v.
Proof.
  revert c v; induction n as [|n IH]; intros c v H; rewrite swp_eq in H |- *; simpl;
    destruct H as [Hd H]; split; try lia; destruct (view c) eqn:E; simpl; try contradiction.
  - destruct H; lia.
  - destruct H as [_ H]. simpl in H. rewrite Nat.sub_0_r in H. exact H.
  - apply IH; exact H.
  - destruct H; split; auto.
  - destruct H; split; auto.
  - apply IH; exact H.
Qed.

Lemma swp_call {A} D n (Rd Wr : Z -> Prop) (Q : A -> nat -> (Z -> T) -> Prop) p k v :
  (0 < n)%nat ->
  swp D (n - 1) Rd Wr (fun _ m v' => (0 < m)%nat /\ swp (S D) (m - 1) Rd Wr Q k v') (body p) v ->
  swp (S D) n Rd Wr Q (Call p k) v.
Proof.
  intros Hn H. rewrite swp_eq. simpl. split; [lia|]. destruct n as [|n]; [lia|].
  simpl in H. rewrite Nat.sub_0_r in H. apply swp_incall. exact H.
Qed.

Lemma swp_loop {A S} D n (Rd Wr : Z -> Prop) (Q : A -> nat -> (Z -> T) -> Prop) (s : S) bd v :
  (0 < n)%nat ->
  swp D (n - 1) Rd Wr (fun r m v' => match r with
                                     | inl s' => swp D m Rd Wr Q (Loop s' bd) v'
                                     | inr a => Q a m v'
                                     end) (bd s) v ->
  swp D n Rd Wr Q (Loop s bd) v.
Proof.
  intros Hn H. rewrite swp_eq. simpl. split; [lia|]. destruct n as [|n]; [lia|].
  simpl in H. rewrite Nat.sub_0_r in H. apply swp_bind.
  eapply swp_conseq; [exact H|]. intros [s'|a] m v' _ Hq; [exact Hq|apply swp_ret; exact Hq].
Qed.

(** Loop with a decreasing measure and constant cost [C] per iteration. *)
Lemma swp_loop_var {A S} D (C : nat) (Rd Wr : Z -> Prop) (Inv : S -> (Z -> T) -> Prop) (mu : S -> Z)
  (Q : A -> (Z -> T) -> Prop) (bd : S -> cmd P T (S + A)) :
  (forall s v, Inv s v ->
     swp D C Rd Wr (fun r _ v' => match r with
                                  | inl s' => Inv s' v' /\ 0 <= mu s' < mu s
                                  | inr a => Q a v'
                                  end) (bd s) v) ->
  forall s v n, Inv s v -> 0 <= mu s -> (Z.of_nat C + 1) * (mu s + 1) <= Z.of_nat n ->
  swp D n Rd Wr (fun a _ v' => Q a v') (Loop s bd) v.
Proof.
  intros HB s v n HI Hmu Hn.
  remember (Z.to_nat (mu s)) as f eqn:Ef.
  revert s v n HI Hmu Hn Ef. induction f as [f IH] using lt_wf_ind. intros s v n HI Hmu Hn Ef.
  apply swp_loop; [nia|].
  eapply swp_use; [exact (HB s v HI)|lia|nia|auto|auto|].
  intros r m v' Hm Hr. destruct r as [s'|a]; [|exact Hr].
  destruct Hr as [HI' Hlt]. apply (IH (Z.to_nat (mu s'))); auto; try lia.
  nia.
Qed.

(** Cells outside [Wr] are unchanged. *)
Lemma swp_frame {A} D n (Rd Wr : Z -> Prop) (Q : A -> nat -> (Z -> T) -> Prop) c v :
  swp D n Rd Wr Q c v ->
  swp D n Rd Wr (fun a m v' => Q a m v' /\ forall i, ~ Wr i -> v' i = v i) c v.
Proof.
  revert c v; induction n as [|n IH]; intros c v H; rewrite swp_eq in H |- *;
    destruct H as [Hd H]; split; try exact Hd; destruct (view c) eqn:E; simpl; try contradiction; auto.
  - destruct H; split; auto.
  - destruct H as [H1 H2]; split; auto. eapply swp_conseq; [exact (IH _ _ H2)|].
    intros a m v' _ [Hq Hf]. split; [exact Hq|]. intros j Hj. rewrite (Hf j Hj).
    unfold upd. destruct (Z.eqb_spec j i); [subst; contradiction|reflexivity].
Qed.

(** The run only depends on the readable cells (writable cells being readable): from
    another view agreeing on [Rd] the same happens, cells outside [Rd] keeping the values
    of that view. *)
Lemma swp_ext {A} D n (Rd Wr : Z -> Prop) (Q : A -> nat -> (Z -> T) -> Prop) c v w :
  (forall i, Wr i -> Rd i) ->
  swp D n Rd Wr Q c v -> (forall i, Rd i -> w i = v i) ->
  swp D n Rd Wr (fun a m w' => exists v', Q a m v' /\ forall i, Rd i -> w' i = v' i) c w.
Proof.
  intros HRW. revert c v w; induction n as [|n IH]; intros c v w H Hw; rewrite swp_eq in H |- *;
    destruct H as [Hd H]; split; try exact Hd; destruct (view c) eqn:E; simpl; try contradiction; eauto.
  - destruct H as [H1 H2]; split; auto. rewrite (Hw i H1). eauto.
  - destruct H as [H1 H2]; split; auto. eapply IH; [exact H2|].
    intros j Hj. unfold upd. destruct (j =? i); auto.
Qed.

End Seq.

(** ** Local arrays *)

Definition zrange (a b : Z) : list Z :=
  map (fun k => a + Z.of_nat k) (seq 0 (Z.to_nat (b - a))).

Definition seg {T} (v : Z -> T) (a b : Z) : list T := map v (zrange a b).

Lemma zrange_length a b : length (zrange a b) = Z.to_nat (b - a).
Proof. unfold zrange. rewrite map_length, seq_length. reflexivity. Qed.

Lemma seg_length {T} (v : Z -> T) a b : length (seg v a b) = Z.to_nat (b - a).
Proof. unfold seg. rewrite map_length. apply zrange_length. Qed.

Lemma nth_error_zrange a b k :
  (k < Z.to_nat (b - a))%nat -> nth_error (zrange a b) k = Some (a + Z.of_nat k).
Proof.
  intro H. unfold zrange. rewrite nth_error_map.
  rewrite (nth_error_nth' _ O) by (rewrite seq_length; exact H).
  rewrite seq_nth by exact H. reflexivity.
Qed.

Lemma nth_error_seg {T} (v : Z -> T) a b k :
  (k < Z.to_nat (b - a))%nat -> nth_error (seg v a b) k = Some (v (a + Z.of_nat k)).
Proof. intro H. unfold seg. rewrite nth_error_map, nth_error_zrange by exact H. reflexivity. Qed.

Lemma In_zrange a b x : In x (zrange a b) <-> a <= x < b.
Proof.
  unfold zrange. rewrite in_map_iff. split.
  - intros (k & E & H). apply in_seq in H. lia.
  - intro H. exists (Z.to_nat (x - a)). split; [lia|]. apply in_seq. lia.
Qed.

Lemma NoDup_zrange a b : NoDup (zrange a b).
Proof.
  unfold zrange. apply FinFun.Injective_map_NoDup; [|apply seq_NoDup].
  intros x y H. lia.
Qed.

Lemma lget_seg {T} (v : Z -> T) L i : 0 <= i < L -> lget (seg v 0 L) i = Some (v i).
Proof.
  intro H. unfold lget. rewrite seg_length.
  destruct (Z.leb_spec 0 i); [|lia]. destruct (Z.ltb_spec i (Z.of_nat (Z.to_nat (L - 0)))); [|lia].
  simpl. rewrite nth_error_seg by lia. f_equal. f_equal. lia.
Qed.

Lemma lupd_length {U} (m : list U) n x : length (lupd m n x) = length m.
Proof. revert n; induction m as [|y m IH]; intros [|n]; simpl; auto. Qed.

Lemma nth_error_lupd {U} (m : list U) n x j :
  nth_error (lupd m n x) j =
  if Nat.eqb j n then (if Nat.ltb n (length m) then Some x else None) else nth_error m j.
Proof.
  revert n j; induction m as [|y m IH]; intros [|n] [|j]; simpl; auto.
  - destruct (Nat.eqb j n); auto.
  - rewrite IH. destruct (Nat.eqb j n); auto.
Qed.

Lemma nth_error_ext_eq {U} (l1 l2 : list U) :
  (forall n, nth_error l1 n = nth_error l2 n) -> l1 = l2.
Proof.
  revert l2; induction l1 as [|x l1 IH]; intros [|y l2] H; auto.
  - specialize (H O); discriminate.
  - specialize (H O); discriminate.
  - f_equal; [specialize (H O); inversion H; auto|]. apply IH. intro n. exact (H (S n)).
Qed.

Lemma lset_seg {T} (v : Z -> T) L i x :
  0 <= i < L -> lset (seg v 0 L) i x = Some (seg (upd v i x) 0 L).
Proof.
  intro H. unfold lset. rewrite seg_length.
  destruct (Z.leb_spec 0 i); [|lia]. destruct (Z.ltb_spec i (Z.of_nat (Z.to_nat (L - 0)))); [|lia].
  simpl. f_equal. apply nth_error_ext_eq. intro n. rewrite nth_error_lupd, seg_length.
  destruct (Nat.eqb_spec n (Z.to_nat i)) as [->|Hn].
  - destruct (Nat.ltb_spec (Z.to_nat i) (Z.to_nat (L - 0))) as [Hl|Hl]; [|lia].
    rewrite nth_error_seg by exact Hl. unfold upd.
    destruct (Z.eqb_spec (0 + Z.of_nat (Z.to_nat i)) i); [reflexivity|lia].
  - destruct (Nat.ltb_spec n (Z.to_nat (L - 0))) as [Hl|Hl].
    + rewrite !nth_error_seg by exact Hl. unfold upd.
      destruct (Z.eqb_spec (0 + Z.of_nat n) i); [lia|reflexivity].
    + rewrite !(proj2 (nth_error_None _ _)); auto; rewrite seg_length; exact Hl.
Qed.

Lemma swp_local {P T U A} (bodyT : P -> cmd P T unit) (bodyU : P -> cmd P U unit)
  D n nl L (Rd Wr : Z -> Prop) (Ql : (Z -> U) -> Prop) (Q : A -> nat -> (Z -> T) -> Prop)
  (c : cmd P U unit) k vl v :
  (forall p, bodyU p = Panic) ->
  swp bodyU 0 nl (fun i => 0 <= i < L) (fun i => 0 <= i < L) (fun _ _ v' => Ql v') c vl ->
  (nl < n)%nat ->
  (forall vl' m, (n - nl <= S m)%nat -> Ql vl' -> swp bodyT D m Rd Wr Q (k (seg vl' 0 L)) v) ->
  swp bodyT D n Rd Wr Q (Local (seg vl 0 L) c k) v.
Proof.
  intros HU H Hn HK. revert n c vl H Hn HK.
  induction nl as [|nl IH]; intros n c vl H Hn HK; rewrite swp_eq in H; rewrite swp_eq;
    destruct H as [Hd H]; split; simpl; try lia; destruct n as [|n]; try lia;
    destruct (view c) eqn:E; simpl; try contradiction.
  - apply HK; [lia|exact H].
  - apply HK; [lia|exact H].
  - apply IH; [exact H|lia|]. intros vl' m Hm Hq. apply HK; [lia|exact Hq].
  - destruct H as [H1 H2]. rewrite lget_seg by exact H1.
    apply IH; [exact H2|lia|]. intros vl' m Hm Hq. apply HK; [lia|exact Hq].
  - destruct H as [H1 H2]. rewrite lset_seg by exact H1.
    apply IH; [exact H2|lia|]. intros vl' m Hm Hq. apply HK; [lia|exact Hq].
  - rewrite HU in H. (* calls inside local code would panic; excluded *)
    exfalso. clear -H Hd E.
    assert (G : forall (A : Type) (c : cmd P U A) p k, view c = HCall p k -> view (k Panic) = HPanic).
    { clear. intros A c; induction c; simpl; intros q kk Hv; try discriminate.
      - destruct (view c) eqn:Ec; simpl in Hv; try discriminate.
        + eapply H; eassumption.
        + inversion Hv; subst. simpl. rewrite (IHc _ _ eq_refl). reflexivity.
      - destruct (view c) eqn:Ec; simpl in Hv; try discriminate.
        + destruct (lget m i); discriminate.
        + destruct (lset m i v); discriminate.
      - inversion Hv; subst. reflexivity.
      - destruct (view c1) eqn:Ec; simpl in Hv; try discriminate.
        inversion Hv; subst. simpl. rewrite (IHc1 _ _ eq_refl). reflexivity. }
    rewrite swp_eq in H. rewrite (G _ _ _ _ E) in H. tauto.
Qed.
