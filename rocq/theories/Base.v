(** * Array views, permutations and order: facts used by all correctness proofs

    Nothing in this file models code; it is about functions [Z -> T] (views of memory)
    restricted to integer ranges. *)

From Coq Require Import List ZArith Lia Bool Permutation.
From Verif Require Import Lang SeqLogic.
Import ListNotations.
Open Scope Z_scope.

(** ** Ranges *)

Lemma zrange_nil a b : b <= a -> zrange a b = [].
Proof. intro H. unfold zrange. replace (Z.to_nat (b - a)) with O by lia. reflexivity. Qed.

Lemma zrange_cons a b : a < b -> zrange a b = a :: zrange (a + 1) b.
Proof.
  intro H. unfold zrange. replace (Z.to_nat (b - a)) with (S (Z.to_nat (b - (a + 1)))) by lia.
  simpl. f_equal; [lia|]. rewrite <- seq_shift, map_map. apply map_ext. intro x. lia.
Qed.

Lemma zrange_app a b c : a <= b <= c -> zrange a b ++ zrange b c = zrange a c.
Proof.
  intros [H1 H2]. remember (Z.to_nat (b - a)) as n eqn:En. revert a H1 En.
  induction n as [|n IH]; intros a H1 En.
  - assert (a = b) by lia. subst a. rewrite (zrange_nil b b) by lia. reflexivity.
  - rewrite (zrange_cons a b), (zrange_cons a c) by lia. simpl. f_equal. apply IH; lia.
Qed.

Lemma zrange_one a : zrange a (a + 1) = [a].
Proof. rewrite zrange_cons by lia. rewrite zrange_nil by lia. reflexivity. Qed.

Lemma seg_app {T} (v : Z -> T) a b c : a <= b <= c -> seg v a b ++ seg v b c = seg v a c.
Proof. intro H. unfold seg. rewrite <- map_app, zrange_app by exact H. reflexivity. Qed.

Lemma seg_ext {T} (v w : Z -> T) a b :
  (forall i, a <= i < b -> v i = w i) -> seg v a b = seg w a b.
Proof.
  intro H. unfold seg. apply map_ext_in. intros i Hi. apply H. apply In_zrange. exact Hi.
Qed.

Lemma seg_ext_inv {T} (v w : Z -> T) a b :
  seg v a b = seg w a b -> forall i, a <= i < b -> v i = w i.
Proof.
  intros H i Hi. assert (E := nth_error_seg v a b (Z.to_nat (i - a)) ltac:(lia)).
  rewrite H, nth_error_seg in E by lia. replace (a + Z.of_nat (Z.to_nat (i - a))) with i in E by lia.
  congruence.
Qed.

Lemma seg_shift {T} (v : Z -> T) o a b : seg v (o + a) (o + b) = seg (fun i => v (o + i)) a b.
Proof.
  unfold seg, zrange. rewrite !map_map. replace (o + b - (o + a)) with (b - a) by lia.
  apply map_ext. intro x. f_equal. lia.
Qed.

Lemma In_seg {T} (v : Z -> T) a b x : In x (seg v a b) <-> exists i, a <= i < b /\ v i = x.
Proof.
  unfold seg. rewrite in_map_iff. split.
  - intros (i & E & H). exists i. split; [apply In_zrange; exact H|exact E].
  - intros (i & H & E). exists i. split; [exact E|apply In_zrange; exact H].
Qed.

(** ** Permutations *)

Definition swapv {T} (v : Z -> T) (i j : Z) : Z -> T := upd (upd v i (v j)) j (v i).

Lemma swapv_l {T} (v : Z -> T) i j : swapv v i j i = v j.
Proof.
  unfold swapv, upd. destruct (Z.eqb_spec i j) as [->|H]; [reflexivity|].
  rewrite Z.eqb_refl. reflexivity.
Qed.
Lemma swapv_r {T} (v : Z -> T) i j : swapv v i j j = v i.
Proof. unfold swapv, upd. rewrite Z.eqb_refl. reflexivity. Qed.
Lemma swapv_o {T} (v : Z -> T) i j k : k <> i -> k <> j -> swapv v i j k = v k.
Proof.
  intros Hi Hj. unfold swapv, upd. destruct (Z.eqb_spec k j); [congruence|].
  destruct (Z.eqb_spec k i); [congruence|]. reflexivity.
Qed.
Lemma swapv_same {T} (v : Z -> T) i k : swapv v i i k = v k.
Proof. unfold swapv, upd. destruct (Z.eqb_spec k i) as [->|]; reflexivity. Qed.

Lemma upd_same {T} (v : Z -> T) i x : upd v i x i = x.
Proof. unfold upd. rewrite Z.eqb_refl. reflexivity. Qed.
Lemma upd_other {T} (v : Z -> T) i x k : k <> i -> upd v i x k = v k.
Proof. intro H. unfold upd. destruct (Z.eqb_spec k i); [congruence|reflexivity]. Qed.

(** [permL L v w]: on the (duplicate-free) cells [L], [w] is a rearrangement of [v]. *)
Definition permL {T} (L : list Z) (v w : Z -> T) : Prop := Permutation (map w L) (map v L).

Lemma permL_refl {T} L (v : Z -> T) : permL L v v.
Proof. apply Permutation_refl. Qed.

Lemma permL_ext {T} L (v w : Z -> T) : (forall i, In i L -> v i = w i) -> permL L v w.
Proof. intro H. unfold permL. rewrite (map_ext_in v w L) by (intros; auto). apply Permutation_refl. Qed.

Lemma permL_trans {T} L (u v w : Z -> T) : permL L u v -> permL L v w -> permL L u w.
Proof. unfold permL. intros H1 H2. eapply Permutation_trans; eassumption. Qed.

Lemma permL_sym {T} L (u v : Z -> T) : permL L u v -> permL L v u.
Proof. unfold permL. apply Permutation_sym. Qed.

Lemma permL_app {T} L1 L2 (v w : Z -> T) : permL L1 v w -> permL L2 v w -> permL (L1 ++ L2) v w.
Proof. unfold permL. intros H1 H2. rewrite !map_app. apply Permutation_app; assumption. Qed.

Lemma permL_perm {T} L1 L2 (v w : Z -> T) : Permutation L1 L2 -> permL L1 v w -> permL L2 v w.
Proof.
  unfold permL. intros H1 H2.
  rewrite <- (Permutation_map w H1), <- (Permutation_map v H1). exact H2.
Qed.

Lemma permL_swap {T} L (v : Z -> T) i j :
  NoDup L -> In i L -> In j L -> permL L v (swapv v i j).
Proof.
  intros Hn Hi Hj. destruct (Z.eq_dec i j) as [->|Hij].
  { apply permL_ext. intros k _. symmetry. apply swapv_same. }
  destruct (in_split _ _ Hi) as (L1 & L2 & ->).
  assert (P1 : Permutation (L1 ++ i :: L2) (i :: L1 ++ L2)) by (symmetry; apply Permutation_middle).
  assert (Hj' : In j (L1 ++ L2)).
  { apply (Permutation_in _ P1) in Hj. destruct Hj; [congruence|assumption]. }
  destruct (in_split _ _ Hj') as (L3 & L4 & E).
  assert (P2 : Permutation (L1 ++ i :: L2) (i :: j :: L3 ++ L4)).
  { rewrite P1, E. apply perm_skip. symmetry. apply Permutation_middle. }
  assert (Hn2 : NoDup (i :: j :: L3 ++ L4)) by (eapply Permutation_NoDup; eassumption).
  inversion Hn2 as [|? ? Hni Hn3]; subst. inversion Hn3 as [|? ? Hnj Hn4]; subst.
  apply (permL_perm (i :: j :: L3 ++ L4)); [symmetry; exact P2|].
  unfold permL. simpl. rewrite swapv_l, swapv_r.
  rewrite (map_ext_in (swapv v i j) v (L3 ++ L4)); [apply perm_swap|].
  intros k Hk. apply swapv_o; intro; subst; [apply Hni; right; exact Hk|apply Hnj; exact Hk].
Qed.

Lemma permL_In {T} L (v w : Z -> T) i :
  permL L v w -> In i L -> exists j, In j L /\ v j = w i.
Proof.
  intros H Hi. assert (G : In (w i) (map v L)).
  { eapply Permutation_in; [exact H|]. apply in_map. exact Hi. }
  apply in_map_iff in G. destruct G as (j & E & G). exists j; auto.
Qed.

Lemma permL_forall {T} L (v w : Z -> T) (X : T -> Prop) :
  permL L v w -> (forall i, In i L -> X (v i)) -> forall i, In i L -> X (w i).
Proof. intros H HX i Hi. destruct (permL_In _ _ _ _ H Hi) as (j & Hj & <-). auto. Qed.

(** Permutation on an interval. *)
Definition permR {T} (a b : Z) (v w : Z -> T) : Prop := permL (zrange a b) v w.

Lemma permR_seg {T} a b (v w : Z -> T) : permR a b v w <-> Permutation (seg w a b) (seg v a b).
Proof. reflexivity. Qed.

Lemma permR_refl {T} a b (v : Z -> T) : permR a b v v.
Proof. apply permL_refl. Qed.

Lemma permR_trans {T} a b (u v w : Z -> T) : permR a b u v -> permR a b v w -> permR a b u w.
Proof. apply permL_trans. Qed.

Lemma permR_swap {T} a b (v : Z -> T) i j : a <= i < b -> a <= j < b -> permR a b v (swapv v i j).
Proof. intros Hi Hj. apply permL_swap; [apply NoDup_zrange|apply In_zrange; lia..]. Qed.

Lemma permR_ext {T} a b (v w : Z -> T) : (forall i, a <= i < b -> v i = w i) -> permR a b v w.
Proof. intro H. apply permL_ext. intros i Hi. apply H. apply In_zrange; exact Hi. Qed.

Lemma permR_forall {T} a b (v w : Z -> T) (X : T -> Prop) :
  permR a b v w -> (forall i, a <= i < b -> X (v i)) -> forall i, a <= i < b -> X (w i).
Proof.
  intros H HX i Hi. eapply permL_forall; [exact H| |apply In_zrange; exact Hi].
  intros k Hk. apply HX. apply In_zrange; exact Hk.
Qed.

Lemma permR_app {T} a b c (v w : Z -> T) :
  a <= b <= c -> permR a b v w -> permR b c v w -> permR a c v w.
Proof. intros H H1 H2. unfold permR. rewrite <- (zrange_app a b c) by exact H. apply permL_app; assumption. Qed.

(** Extending a permutation to a bigger range, with equality on the rest. *)
Lemma permR_widen {T} a b a' b' (v w : Z -> T) :
  a' <= a -> a <= b -> b <= b' ->
  permR a b v w -> (forall i, a' <= i < a \/ b <= i < b' -> v i = w i) -> permR a' b' v w.
Proof.
  intros Ha Hab Hb H E.
  apply (permR_app a' a b'); [lia|apply permR_ext; intros; apply E; lia|].
  apply (permR_app a b b'); [lia|exact H|apply permR_ext; intros; apply E; lia].
Qed.

(** Counting elements with a property is invariant under permutation. *)
Lemma filter_perm_length {T} (f : T -> bool) (l l' : list T) :
  Permutation l l' -> length (filter f l) = length (filter f l').
Proof.
  induction 1; simpl; auto.
  - destruct (f x); simpl; congruence.
  - destruct (f x), (f y); reflexivity.
  - congruence.
Qed.

Lemma filter_map {A B} (f : B -> bool) (g : A -> B) (l : list A) :
  filter f (map g l) = map g (filter (fun x => f (g x)) l).
Proof. induction l as [|x l IH]; simpl; [reflexivity|]. destruct (f (g x)); simpl; congruence. Qed.

(** ** Adjacent exchanges of inverted neighbours *)

Section Bubble.
Context {U : Type}.
Variable lt : U -> U -> bool.

Inductive bubble : list U -> list U -> Prop :=
| bubble_refl l : bubble l l
| bubble_step l l1 x y l2 :
    bubble l (l1 ++ x :: y :: l2) -> lt y x = true -> bubble l (l1 ++ y :: x :: l2).

Lemma bubble_trans l l' l'' : bubble l l' -> bubble l' l'' -> bubble l l''.
Proof. intros H1 H2; induction H2; auto. apply bubble_step; auto. Qed.

Lemma bubble_perm l l' : bubble l l' -> Permutation l' l.
Proof.
  induction 1; [apply Permutation_refl|]. rewrite <- IHbubble.
  apply Permutation_app_head. apply perm_swap.
Qed.

(** Elements that are pairwise not [lt] keep their relative order. *)
Lemma bubble_filter (f : U -> bool) l l' :
  (forall x y, f x = true -> f y = true -> lt x y = false) ->
  bubble l l' -> filter f l' = filter f l.
Proof.
  intros Hf H; induction H; auto. rewrite <- IHbubble, !filter_app. f_equal. simpl.
  destruct (f y) eqn:Ey; destruct (f x) eqn:Ex; auto. rewrite Hf in H0 by assumption. discriminate.
Qed.

Lemma bubble_seg_swap (v : Z -> U) a b l :
  a <= l -> l + 1 < b -> lt (v (l + 1)) (v l) = true ->
  bubble (seg v a b) (seg (swapv v l (l + 1)) a b).
Proof.
  intros Ha Hb Hlt.
  assert (E : forall w : Z -> U, seg w a b = seg w a l ++ w l :: w (l + 1) :: seg w (l + 2) b).
  { intro w. rewrite <- (seg_app w a l b) by lia. f_equal. unfold seg.
    rewrite (zrange_cons l b), (zrange_cons (l + 1) b) by lia. simpl.
    replace (l + 1 + 1) with (l + 2) by lia. reflexivity. }
  rewrite (E (swapv v l (l + 1))), (E v). rewrite swapv_l, swapv_r.
  rewrite (seg_ext (swapv v l (l + 1)) v a l) by (intros; apply swapv_o; lia).
  rewrite (seg_ext (swapv v l (l + 1)) v (l + 2) b) by (intros; apply swapv_o; lia).
  apply bubble_step; [apply bubble_refl|exact Hlt].
Qed.

End Bubble.
