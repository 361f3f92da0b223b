(** * The sorted sequence is determined by the input *)

From Coq Require Import List ZArith Lia Bool Permutation Sorted.
From Verif Require Import Lang Base Scalar Typed Kinds Spec KindsFacts TypedApi TypedCheck.
Import ListNotations.
Open Scope Z_scope.
Local Arguments Z.mul : simpl never.
Local Arguments Z.add : simpl never.
Local Arguments Z.sub : simpl never.
Local Arguments Z.pow : simpl never.
Local Arguments selfNe : simpl never.

Lemma sorted_unique {K} (R : K -> K -> Prop) : (forall x y, R x y -> R y x -> x = y) ->
  forall l1 l2, Permutation l1 l2 -> StronglySorted R l1 -> StronglySorted R l2 -> l1 = l2.
Proof.
  intro Has. induction l1 as [|x l1 IH]; intros l2 HP H1 H2.
  - apply Permutation_nil in HP. auto.
  - destruct l2 as [|y l2]; [apply Permutation_sym, Permutation_nil in HP; discriminate|].
    inversion H1 as [|? ? S1 F1]; inversion H2 as [|? ? S2 F2]; subst.
    rewrite Forall_forall in F1, F2.
    assert (x = y).
    { assert (I1 : In x (y :: l2)) by (eapply Permutation_in; [exact HP|left; reflexivity]).
      assert (I2 : In y (x :: l1)) by (eapply Permutation_in; [symmetry; exact HP|left; reflexivity]).
      destruct I1 as [|I1]; [auto|]. destruct I2 as [|I2]; [auto|]. apply Has; auto. }
    subst. f_equal. apply IH; auto. eapply Permutation_cons_inv; eauto.
Qed.

(** Sequences sorted under a preorder that an observation turns into an order. *)
Lemma sorted_observe {T K} (R : T -> T -> Prop) (X : T -> Prop) (obs : T -> K) :
  (forall x y x' y', X x -> X y -> obs x = obs x' -> obs y = obs y' -> R x y -> R x' y') ->
  (forall x y, X x -> X y -> R x y -> R y x -> obs x = obs y) ->
  forall l1 l2, Permutation l1 l2 -> Forall X l1 -> StronglySorted R l1 -> StronglySorted R l2 ->
  map obs l1 = map obs l2.
Proof.
  intros Hc Ha l1 l2 HP HX H1 H2.
  set (RK := fun a b => exists x y, X x /\ X y /\ obs x = a /\ obs y = b /\ R x y).
  assert (HX2 : Forall X l2) by (eapply Permutation_Forall; eauto).
  apply (sorted_unique RK).
  - intros a b (x & y & Xx & Xy & <- & <- & R1) (x' & y' & Xx' & Xy' & E1 & E2 & R2).
    apply Ha; auto. eapply Hc; [exact Xx'|exact Xy'|exact E1|exact E2|exact R2].
  - apply Permutation_map. exact HP.
  - revert H1 HX. clear - RK. induction 1 as [|x l HS IH HF]; intro HX; simpl; [constructor|].
    inversion HX; subst. constructor; [auto|]. rewrite Forall_forall in *. intros b Hb.
    apply in_map_iff in Hb. destruct Hb as (y & <- & Hy). exists x, y. auto 7.
  - revert H2 HX2. clear - RK. induction 1 as [|x l HS IH HF]; intro HX; simpl; [constructor|].
    inversion HX; subst. constructor; [auto|]. rewrite Forall_forall in *. intros b Hb.
    apply in_map_iff in Hb. destruct Hb as (y & <- & Hy). exists x, y. auto 7.
Qed.

Lemma intVal_inj w x y : 0 < w -> 0 <= x < 2 ^ w -> 0 <= y < 2 ^ w -> intVal w x = intVal w y -> x = y.
Proof.
  intros Hw Hx Hy H. unfold intVal in H.
  assert (E : (x + 2 ^ (w - 1)) mod 2 ^ w = (y + 2 ^ (w - 1)) mod 2 ^ w) by lia.
  assert (P : 0 < 2 ^ w) by (apply Z.pow_pos_nonneg; lia).
  assert (E2 : (x + 2 ^ (w - 1) - (y + 2 ^ (w - 1))) mod 2 ^ w = 0).
  { rewrite Zminus_mod, E, Z.sub_diag, Z.mod_0_l; lia. }
  replace (x + 2 ^ (w - 1) - (y + 2 ^ (w - 1))) with (x - y) in E2 by lia.
  apply Z.mod_divide in E2; [|lia]. destruct E2 as [q E2]. assert (q = 0) by nia. subst. lia.
Qed.

Lemma lexle_antisym a b : lexle a b -> lexle b a -> a = b.
Proof.
  intro H. induction H as [b|x y a b Hxy|x a b H IH]; intro H2.
  - inversion H2; reflexivity.
  - inversion H2; subst; lia.
  - inversion H2; subst; [lia|]. f_equal. auto.
Qed.

Lemma filter_perm {X} (f : X -> bool) l1 l2 : Permutation l1 l2 -> Permutation (filter f l1) (filter f l2).
Proof.
  induction 1; simpl.
  - constructor.
  - destruct (f x); [constructor; assumption|assumption].
  - destruct (f x), (f y); try reflexivity. apply perm_swap.
  - eapply Permutation_trans; eauto.
Qed.

Lemma filter_none {X} (f : X -> bool) l : Forall (fun x => f x = false) l -> filter f l = [].
Proof. induction 1; simpl; [reflexivity|]. rewrite H. assumption. Qed.
Lemma filter_every {X} (f : X -> bool) l : Forall (fun x => f x = true) l -> filter f l = l.
Proof. induction 1; simpl; [reflexivity|]. rewrite H. f_equal. assumption. Qed.

Lemma map_const {X Y} (f : X -> Y) (c : Y) l : Forall (fun x => f x = c) l -> map f l = repeat c (length l).
Proof. induction 1; simpl; [reflexivity|]. rewrite H. f_equal. assumption. Qed.

(** What of an element the order determines. *)
Inductive obsT := ONum (z : Z) | OBytes (l : list Z) | ONan.
Definition observe (e : ety) : elem e -> obsT :=
  match e as e return elem e -> obsT with
  | TI4 | TI8 | TU4 | TU8 => fun b : Z => ONum b
  | TF4 => fun b : Z => if selfNe TF4 b then ONan else ONum (fVal 23 8 b)
  | TF8 => fun b : Z => if selfNe TF8 b then ONan else ONum (fVal 52 11 b)
  | TS => fun x => OBytes (sbytes x)
  | TB => fun x => OBytes (bbytes x)
  | TLenS => fun x => ONum (Z.of_nat (length (sbytes x)))
  | TLenB => fun x => ONum (alen x)
  end.

Lemma observe_compat pl e x y x' y' : ~ nan e x -> ~ nan e y -> wellTyped pl e x -> wellTyped pl e y ->
  observe e x = observe e x' -> observe e y = observe e y' -> le e x y -> le e x' y'.
Proof.
  intros Nx Ny Wx Wy Ex Ey H.
  assert (F : forall e (z : elem e), ~ nan e z -> selfNe e z = false).
  { intros e0 z N. destruct (selfNe e0 z) eqn:E; [|reflexivity]. apply selfNe_nan in E. contradiction. }
  destruct e; simpl in *; try (inversion Ex; inversion Ey; subst; assumption).
  - rewrite (F TF4 x Nx) in Ex. rewrite (F TF4 y Ny) in Ey.
    destruct (selfNe TF4 x'), (selfNe TF4 y'); try discriminate. inversion Ex; inversion Ey. congruence.
  - rewrite (F TF8 x Nx) in Ex. rewrite (F TF8 y Ny) in Ey.
    destruct (selfNe TF8 x'), (selfNe TF8 y'); try discriminate. inversion Ex; inversion Ey. congruence.
  - inversion Ex; inversion Ey. lia.
Qed.

Lemma observe_antisym pl e x y : ~ nan e x -> ~ nan e y -> wellTyped pl e x -> wellTyped pl e y ->
  le e x y -> le e y x -> observe e x = observe e y.
Proof.
  intros Nx Ny Wx Wy H1 H2.
  assert (F : forall e (z : elem e), ~ nan e z -> selfNe e z = false).
  { intros e0 z N. destruct (selfNe e0 z) eqn:E; [|reflexivity]. apply selfNe_nan in E. contradiction. }
  destruct e; simpl in *.
  - f_equal. apply (intVal_inj 32); lia.
  - f_equal. apply (intVal_inj 64); lia.
  - f_equal. lia.
  - f_equal. lia.
  - rewrite (F TF4 x Nx), (F TF4 y Ny). f_equal. lia.
  - rewrite (F TF8 x Nx), (F TF8 y Ny). f_equal. lia.
  - f_equal. apply lexle_antisym; assumption.
  - f_equal. apply lexle_antisym; assumption.
  - f_equal. lia.
  - f_equal. lia.
Qed.

Lemma observe_same e x y : observe e x = observe e y -> same e x y.
Proof.
  assert (D : forall e (z : elem e), if selfNe e z then nan e z else ~ nan e z).
  { intros e0 z. destruct (selfNe e0 z) eqn:E; [apply selfNe_nan; exact E|]. rewrite <- selfNe_nan. congruence. }
  destruct e; simpl; intro H; try (inversion H; subst; reflexivity).
  - assert (Dx := D TF4 x). assert (Dy := D TF4 y). destruct (selfNe TF4 x), (selfNe TF4 y); try discriminate.
    + left. auto.
    + right. inversion H. auto.
  - assert (Dx := D TF8 x). assert (Dy := D TF8 y). destruct (selfNe TF8 x), (selfNe TF8 y); try discriminate.
    + left. auto.
    + right. inversion H. auto.
  - inversion H. lia.
Qed.

Lemma map_Forall2 {X Y} (f : X -> Y) (R : X -> X -> Prop) l1 l2 :
  (forall x y, f x = f y -> R x y) -> map f l1 = map f l2 -> Forall2 R l1 l2.
Proof.
  intro H. revert l2. induction l1 as [|x l1 IH]; intros [|y l2] E; simpl in E; try discriminate; constructor.
  - apply H. congruence.
  - apply IH. congruence.
Qed.

Lemma inOrder_unique pl e opt l l1 l2 : Forall (wellTyped pl e) l -> sortable e opt l ->
  Permutation l1 l -> Permutation l2 l -> inOrder e opt l1 -> inOrder e opt l2 ->
  Forall2 (same e) l1 l2.
Proof.
  intros HW Hso P1 P2 (a1 & x1 & b1 & E1 & Ha1 & Hx1 & Hb1 & S1 & A1 & B1) (a2 & x2 & b2 & E2 & Ha2 & Hx2 & Hb2 & S2 & A2 & B2).
  subst l1 l2.
  assert (PP : Permutation (a1 ++ x1 ++ b1) (a2 ++ x2 ++ b2)) by (rewrite P1, P2; reflexivity).
  set (f := fun x => negb (selfNe e x)).
  assert (Fn : forall l, Forall (nan e) l -> filter f l = []).
  { intros l0 H. apply filter_none. eapply Forall_impl; [|exact H]. intros x Hx. unfold f. apply selfNe_nan in Hx. rewrite Hx. reflexivity. }
  assert (Fx : forall l, Forall (fun y => ~ nan e y) l -> filter f l = l).
  { intros l0 H. apply filter_every. eapply Forall_impl; [|exact H]. intros x Hx. cbv beta in Hx. unfold f. rewrite <- selfNe_nan in Hx.
    destruct (selfNe e x); [exfalso; auto|reflexivity]. }
  assert (PX : Permutation x1 x2).
  { assert (G := filter_perm f _ _ PP). rewrite !filter_app in G.
    rewrite (Fn a1), (Fn b1), (Fn a2), (Fn b2), (Fx x1), (Fx x2), !app_nil_r in G by assumption. exact G. }
  assert (HWx : Forall (wellTyped pl e) x1).
  { assert (G := Permutation_Forall (Permutation_sym P1) HW). apply Forall_app in G. destruct G as [_ G].
    apply Forall_app in G. apply G. }
  assert (EX : map (observe e) x1 = map (observe e) x2).
  { set (X := fun x => wellTyped pl e x /\ ~ nan e x).
    apply (sorted_observe (le e) X); auto.
    - intros x y x' y' [] []. apply (observe_compat pl); assumption.
    - intros x y [] []. apply (observe_antisym pl); assumption.
    - rewrite Forall_forall in *. intros x Hx. split; auto. }
  apply (map_Forall2 (observe e)); [apply observe_same|]. rewrite !map_app, EX.
  assert (On : forall l, Forall (nan e) l -> map (observe e) l = repeat ONan (length l)).
  { intros l0 H. apply map_const. eapply Forall_impl; [|exact H]. intros x Hx.
    assert (Hx' := proj2 (selfNe_nan e x) Hx). destruct e; simpl in *; try contradiction; rewrite Hx'; reflexivity. }
  assert (Hlen := Permutation_length PP). rewrite !app_length, (Permutation_length PX) in Hlen.
  rewrite (On a1), (On a2), (On b1), (On b2) by assumption.
  assert (length a1 = length a2 /\ length b1 = length b2) as [-> ->]; [|reflexivity].
  destruct Hso as [E|[E|N]].
  - rewrite (A1 E), (A2 E) in *. simpl in *. lia.
  - rewrite (B1 E), (B2 E) in *. simpl in *. lia.
  - assert (Z0 : forall l0, Forall (nan e) l0 -> Forall (fun y => ~ nan e y) l0 -> length l0 = O).
    { intros l0 H1 H2. destruct H1; [reflexivity|]. inversion H2; subst. contradiction. }
    assert (N1 := Permutation_Forall (Permutation_sym P1) N). assert (N2 := Permutation_Forall (Permutation_sym P2) N).
    rewrite !Forall_app in N1, N2. destruct N1 as (Na1 & _ & Nb1), N2 as (Na2 & _ & Nb2).
    rewrite !Z0 by assumption. auto.
Qed.
