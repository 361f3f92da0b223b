(** * Proof rules for slice operations and insertion sort *)

From Coq Require Import List ZArith Lia Bool Permutation.
From Verif Require Import Lang SeqLogic Base Scalar Typed.
Import ListNotations.
Open Scope Z_scope.

Local Arguments Z.mul : simpl never.
Local Arguments Z.add : simpl never.
Local Arguments Z.sub : simpl never.

(** Cells of a slice. *)
Definition reg (s : slice) (i : Z) : Prop := off s <= i < off s + len s.

Section Ops.
Context {P T : Type}.
Variable body : P -> cmd P T unit.
Notation swp := (swp body).

Lemma swp_apply {A} D1 D n1 n (R1 W1 Rd Wr : Z -> Prop) (Post : A -> (Z -> T) -> Prop)
  (Q : A -> nat -> (Z -> T) -> Prop) c v :
  swp D1 n1 R1 W1 (fun a _ v' => Post a v') c v ->
  (D1 <= D)%nat -> (n1 <= n)%nat ->
  (forall i, R1 i -> Rd i) -> (forall i, W1 i -> Wr i) ->
  (forall a m v', Post a v' -> (forall i, ~ W1 i -> v' i = v i) -> (n <= m + n1)%nat -> Q a m v') ->
  swp D n Rd Wr Q c v.
Proof.
  intros H HD Hn HR HW HQ. apply swp_frame in H.
  eapply swp_use; [exact H|assumption|assumption|assumption|assumption|].
  intros a m v' Hm [Hp Hf]. apply HQ; [assumption|assumption|lia].
Qed.

Lemma swp_sget D n (Rd Wr : Z -> Prop) (Q : T -> nat -> (Z -> T) -> Prop) s i v :
  (0 < n)%nat -> 0 <= i < len s -> Rd (off s + i) -> Q (v (off s + i)) (n - 1)%nat v ->
  swp D n Rd Wr Q (sget s i) v.
Proof.
  intros Hn Hi HR HQ. unfold sget. destruct (Z.leb_spec 0 i); [|lia].
  destruct (Z.ltb_spec i (len s)); [|lia]. simpl. apply swp_read; auto. apply swp_ret; auto.
Qed.

Lemma swp_sset D n (Rd Wr : Z -> Prop) (Q : unit -> nat -> (Z -> T) -> Prop) s i x v :
  (0 < n)%nat -> 0 <= i < len s -> Wr (off s + i) -> Q tt (n - 1)%nat (upd v (off s + i) x) ->
  swp D n Rd Wr Q (sset s i x) v.
Proof.
  intros Hn Hi HR HQ. unfold sset. destruct (Z.leb_spec 0 i); [|lia].
  destruct (Z.ltb_spec i (len s)); [|lia]. simpl. apply swp_write; auto. apply swp_ret; auto.
Qed.

Lemma swp_sswap D n (Rd Wr : Z -> Prop) (Q : unit -> nat -> (Z -> T) -> Prop) s l h v :
  (3 < n)%nat -> 0 <= l < len s -> 0 <= h < len s ->
  Rd (off s + l) -> Rd (off s + h) -> Wr (off s + l) -> Wr (off s + h) ->
  Q tt (n - 4)%nat (swapv v (off s + l) (off s + h)) ->
  swp D n Rd Wr Q (sswap s l h) v.
Proof.
  intros Hn Hl Hh R1 R2 W1 W2 HQ. unfold sswap.
  apply swp_bind, swp_sget; [lia|lia|assumption|].
  apply swp_bind, swp_sget; [lia|lia|assumption|].
  apply swp_bind, swp_sset; [lia|lia|assumption|].
  apply swp_sset; [lia|lia|assumption|].
  replace (n - 1 - 1 - 1 - 1)%nat with (n - 4)%nat by lia. exact HQ.
Qed.

Lemma swp_reslice D n (Rd Wr : Z -> Prop) (Q : slice -> nat -> (Z -> T) -> Prop) s l h v :
  0 <= l -> l <= h -> h <= len s -> Q (Slice (off s + l) (h - l)) n v ->
  swp D n Rd Wr Q (reslice s l h) v.
Proof.
  intros H1 H2 H3 HQ. unfold reslice. destruct (Z.leb_spec 0 l); [|lia].
  destruct (Z.leb_spec l h); [|lia]. destruct (Z.leb_spec h (len s)); [|lia]. simpl.
  apply swp_ret; exact HQ.
Qed.

(** ** Insertion sort *)

Section Insertion.
Variable lt : T -> T -> bool.
Variable okT : T -> Prop.
Hypothesis lt_asym : forall x y, okT x -> okT y -> lt x y = true -> lt y x = false.
Hypothesis ge_trans : forall x y z, okT x -> okT y -> okT z ->
  lt y x = false -> lt z y = false -> lt z x = false.

(** [v] is ascending on cells [a,b): no later element is less than an earlier one. *)
Definition ascending (a b : Z) (v : Z -> T) : Prop :=
  forall i j, a <= i -> i < j -> j < b -> lt (v j) (v i) = false.

Definition cIns (n : Z) : Z := (4 * n + 8) * (n + 1).

Lemma insertion_inner s h val v0 D :
  let o := off s in
  1 <= h < len s ->
  (forall i, o <= i < o + len s -> okT (v0 i)) ->
  forall l v n,
  1 <= l <= h ->
  (forall i, o <= i < o + len s -> okT (upd v (o + l) val i)) ->
  bubble lt (seg v0 o (o + len s)) (seg (upd v (o + l) val) o (o + len s)) ->
  (forall i j, 0 <= i -> i < j -> j <= h -> j <> l ->
     lt (upd v (o + l) val (o + j)) (upd v (o + l) val (o + i)) = false) ->
  (l = h -> v (o + h) = val) ->
  4 * (l + 1) <= Z.of_nat n ->
  swp D n (reg s) (reg s)
    (fun r _ v' =>
       match r with
       | Some l' => 0 <= l' < h /\
           (forall i, o <= i < o + len s -> okT (upd v' (o + l') val i)) /\
           bubble lt (seg v0 o (o + len s)) (seg (upd v' (o + l') val) o (o + len s)) /\
           ascending o (o + (h + 1)) (upd v' (o + l') val)
       | None => (forall i, o <= i < o + len s -> okT (v' i)) /\
           bubble lt (seg v0 o (o + len s)) (seg v' o (o + len s)) /\
           ascending o (o + (h + 1)) v'
       end)
    (Loop l (fun l =>
             pre <- sget s (l - 1) ;;
             if lt val pre then
               sset s l pre ;;;
               (if l - 1 =? 0 then done (Some 0) else goto (l - 1))
             else if l =? h then done None else done (Some l))%cmd) v.
Proof.
  intros o Hh Hok0 l v n Hl Hok Hb Hs Heq Hn.
  apply (swp_loop_var body D 3 (reg s) (reg s)
    (fun l v => 1 <= l <= h /\
       (forall i, o <= i < o + len s -> okT (upd v (o + l) val i)) /\
       bubble lt (seg v0 o (o + len s)) (seg (upd v (o + l) val) o (o + len s)) /\
       (forall i j, 0 <= i -> i < j -> j <= h -> j <> l ->
          lt (upd v (o + l) val (o + j)) (upd v (o + l) val (o + i)) = false) /\
       (l = h -> v (o + h) = val))
    (fun l => l)); [|repeat split; auto; lia|lia|lia].
  clear l v n Hl Hok Hb Hs Heq Hn.
  intros l v (Hl & Hok & Hb & Hs & Heq).
  assert (Hval : okT val).
  { generalize (Hok (o + l) ltac:(lia)). rewrite upd_same. auto. }
  assert (Hpre : okT (v (o + (l - 1)))).
  { generalize (Hok (o + (l - 1)) ltac:(lia)). rewrite upd_other by lia. auto. }
  apply swp_bind, swp_sget; [lia|lia|unfold reg, o in *; lia|].
  destruct (lt val (v (off s + (l - 1)))) eqn:E.
  - apply swp_bind, swp_sset; [lia|lia|unfold reg, o in *; lia|].
    fold o. fold o in E. set (w := upd v (o + l) val) in *.
    set (v' := upd v (o + l) (v (o + (l - 1)))).
    (* filling the new hole is exchanging the neighbours of the old view *)
    assert (Ew : forall i, upd v' (o + (l - 1)) val i = swapv w (o + (l - 1)) (o + (l - 1) + 1) i).
    { intro i. replace (o + (l - 1) + 1) with (o + l) by lia.
      unfold swapv, w, v', upd.
      destruct (Z.eqb_spec i (o + l)) as [->|]; destruct (Z.eqb_spec (o + l) (o + (l - 1)));
        destruct (Z.eqb_spec (o + (l - 1)) (o + l)); try lia; auto.
      - destruct (Z.eqb_spec i (o + (l - 1))); [|reflexivity]. rewrite Z.eqb_refl. reflexivity. }
    assert (Hb' : bubble lt (seg v0 o (o + len s)) (seg (upd v' (o + (l - 1)) val) o (o + len s))).
    { eapply bubble_trans; [exact Hb|].
      rewrite (seg_ext (upd v' (o + (l - 1)) val) (swapv w (o + (l - 1)) (o + (l - 1) + 1)))
        by (intros; apply Ew).
      apply bubble_seg_swap; try lia. replace (o + (l - 1) + 1) with (o + l) by lia.
      unfold w at 1. rewrite upd_same. unfold w. rewrite upd_other by lia. exact E. }
    assert (Hok' : forall i, o <= i < o + len s -> okT (upd v' (o + (l - 1)) val i)).
    { intros i Hi. rewrite Ew. replace (o + (l - 1) + 1) with (o + l) by lia.
      destruct (Z.eq_dec i (o + (l - 1))) as [->|]; [rewrite swapv_l; apply Hok; lia|].
      destruct (Z.eq_dec i (o + l)) as [->|]; [rewrite swapv_r; apply Hok; lia|].
      rewrite swapv_o by lia. apply Hok; lia. }
    assert (Hs' : forall i j, 0 <= i -> i < j -> j <= h -> j <> l - 1 ->
          lt (upd v' (o + (l - 1)) val (o + j)) (upd v' (o + (l - 1)) val (o + i)) = false).
    { intros i j Hi Hij Hj Hne. rewrite !Ew. replace (o + (l - 1) + 1) with (o + l) by lia.
      destruct (Z.eq_dec j l) as [->|Hjl].
      - rewrite swapv_r. destruct (Z.eq_dec i (l - 1)) as [->|Hil].
        + rewrite swapv_l. unfold w. rewrite upd_same, upd_other by lia. apply lt_asym; auto.
        + rewrite swapv_o by lia. apply Hs; lia.
      - rewrite (swapv_o w (o + (l - 1)) (o + l) (o + j)) by lia.
        destruct (Z.eq_dec i (l - 1)) as [->|Hil].
        + rewrite swapv_l. apply Hs; lia.
        + destruct (Z.eq_dec i l) as [->|Hil'].
          * rewrite swapv_r. apply Hs; lia.
          * rewrite swapv_o by lia. apply Hs; lia. }
    destruct (Z.eqb_spec (l - 1) 0) as [E0|E0]; apply swp_ret.
    + replace (l - 1) with 0 in * by lia. repeat split; [lia|lia|exact Hok'|exact Hb'|].
      intros i j Hi Hij Hj. replace i with (o + (i - o)) by lia. replace j with (o + (j - o)) by lia.
      apply Hs'; lia.
    + split; [|lia]. repeat split; [lia|lia|exact Hok'|exact Hb'|exact Hs'|lia].
  - fold o in E. set (w := upd v (o + l) val) in *.
    assert (Hasc : ascending o (o + (h + 1)) w).
    { intros i j Hi Hij Hj. replace i with (o + (i - o)) by lia. replace j with (o + (j - o)) by lia.
      destruct (Z.eq_dec (j - o) l) as [El|El]; [|apply Hs; lia].
      rewrite El. destruct (Z.eq_dec (i - o) (l - 1)) as [Ei|Ei].
      - rewrite Ei. unfold w. rewrite upd_same, upd_other by lia. exact E.
      - apply (ge_trans (w (o + (i - o))) (w (o + (l - 1))) (w (o + l))); try (apply Hok; lia).
        + apply Hs; lia.
        + unfold w. rewrite upd_same, upd_other by lia. exact E. }
    destruct (Z.eqb_spec l h) as [El|El]; apply swp_ret.
    + subst l. assert (Ew : forall i, w i = v i).
      { intro i. unfold w, upd. destruct (Z.eqb_spec i (o + h)) as [->|]; [symmetry; auto|reflexivity]. }
      repeat split.
      * intros i Hi. rewrite <- Ew. apply Hok; exact Hi.
      * rewrite <- (seg_ext w v) by (intros; apply Ew). exact Hb.
      * intros i j Hi Hij Hj. rewrite <- !Ew. apply Hasc; lia.
    + repeat split; [lia|lia|exact Hok|exact Hb|exact Hasc].
Qed.

Lemma swp_insertion s v0 D :
  let o := off s in
  0 <= len s ->
  (forall i, o <= i < o + len s -> okT (v0 i)) ->
  swp D (Z.to_nat (cIns (len s))) (reg s) (reg s)
    (fun _ _ v' => bubble lt (seg v0 o (o + len s)) (seg v' o (o + len s)) /\
                   ascending o (o + len s) v')
    (insertion lt s) v0.
Proof.
  intros o Hlen Hok0. unfold insertion.
  apply (swp_loop_var body D (Z.to_nat (4 * len s + 7)) (reg s) (reg s)
    (fun h v => 1 <= h /\ (forall i, o <= i < o + len s -> okT (v i)) /\
       bubble lt (seg v0 o (o + len s)) (seg v o (o + len s)) /\
       ascending o (o + Z.min h (len s)) v)
    (fun h => Z.max 0 (len s - h))
    (fun _ v' => bubble lt (seg v0 o (o + len s)) (seg v' o (o + len s)) /\
                 ascending o (o + len s) v')).
  2:{ repeat split; [lia|exact Hok0|apply bubble_refl|intros i j; lia]. }
  2:{ lia. }
  2:{ unfold cIns. nia. }
  intros h v (Hh & Hok & Hb & Hs).
  destruct (Z.ltb_spec h (len s)) as [Hl|Hl].
  2:{ apply swp_ret. rewrite Z.min_r in Hs by lia. auto. }
  rewrite Z.min_l in Hs by lia.
  apply swp_bind, swp_sget; [lia|lia|unfold reg, o in *; lia|]. fold o.
  assert (Eu : forall i, upd v (o + h) (v (o + h)) i = v i).
  { intro i. unfold upd. destruct (Z.eqb_spec i (o + h)) as [->|]; reflexivity. }
  apply swp_bind. eapply swp_apply.
  { apply (insertion_inner s h (v (o + h)) v0 D ltac:(lia) Hok0 h v (Z.to_nat (4 * (h + 1)))).
    - lia.
    - intros i Hi. fold o. rewrite Eu. auto.
    - fold o. rewrite (seg_ext (upd v (o + h) (v (o + h))) v) by (intros; apply Eu). exact Hb.
    - intros i j Hi Hij Hj Hjl. fold o. rewrite !Eu. apply Hs; lia.
    - reflexivity.
    - lia. }
  { lia. } { lia. } { auto. } { auto. }
  cbv beta. fold o. intros [l'|] m v' Hp _ Hm.
  - destruct Hp as (Hl' & Hok' & Hb' & Hs').
    apply swp_bind, swp_sset; [lia|lia|unfold reg, o in *; lia|].
    apply swp_ret. fold o. split; [|lia]. repeat split; [lia|exact Hok'|exact Hb'|].
    rewrite Z.min_l by lia. exact Hs'.
  - destruct Hp as (Hok' & Hb' & Hs'). apply swp_ret. split; [|lia].
    repeat split; [lia|exact Hok'|exact Hb'|]. rewrite Z.min_l by lia. exact Hs'.
Qed.

End Insertion.
End Ops.
