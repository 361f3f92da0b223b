(** * Sort looks at every element

    If some position were not read, nothing would change if the element there were the smallest, or the
    largest; but then it would have to be moved. *)

From Coq Require Import List ZArith Lia Bool Permutation Sorted.
From Verif Require Import Lang Kinds Typed Trace Spec Lsw Calls Guarantee TypedApi TopFacts TraceFacts Alike AlikeTop.
Import ListNotations.
Open Scope Z_scope.

Section Looks.
Variables (pl : plat) (tn : tuning).
Hypothesis Hpl : platOk pl.
Hypothesis Htn : tuningOk pl tn.
Variables (cap n : Z).
Hypothesis Hn : 2 <= n <= cap.
Hypothesis Hb : 11 * n + 18 < 10 * intSize pl.
Context {T : Type}.
Variables (lt : T -> T -> bool) (m : Z -> T).
Hypothesis Hirr : forall i, 0 <= i < n -> lt (m i) (m i) = false.
Variable i : Z.
Hypothesis Hi : 0 <= i < n.

(** Position [i] before all others if [0 < i], after them otherwise. *)
Definition extreme (j k : Z) : bool := if 0 <? i then (j =? i) && negb (k =? i) else (k =? i) && negb (j =? i).
Definition ltx (j k : Z) : bool := extreme j k || (negb (j =? i) && negb (k =? i) && posLt n lt m j k).

Ltac cases := repeat match goal with |- context [?a =? ?b] => destruct (Z.eqb_spec a b) end.

Lemma ltx_ok : consistent ltx extreme.
Proof.
  unfold ltx, extreme. split; [|split; [split|split]].
  - intro x. rewrite (posLt_irr n lt m Hirr x). destruct (0 <? i), (x =? i); reflexivity.
  - intros x y. destruct (0 <? i); cases; cbn; congruence.
  - intros x y z. destruct (0 <? i); cases; cbn; congruence.
  - intros x y ->. reflexivity.
  - intros x y. destruct (0 <? i); cases; cbn; congruence.
Qed.

Definition others (x : T) (j : Z) : Prop := 0 <= j < n /\ j <> i /\ x = m j.

Lemma others_cmp x j y k : others x j -> others y k -> lt x y = ltx j k.
Proof.
  intros (Hj & Nj & ->) (Hk & Nk & ->). unfold ltx, extreme, posLt. rewrite !clamp_id by assumption.
  rewrite (proj2 (Z.eqb_neq j i) Nj), (proj2 (Z.eqb_neq k i) Nk). destruct (Z.ltb_spec 0 n); [|lia]. destruct (0 <? i); reflexivity.
Qed.

Lemma sorted_at (lq : Z -> Z -> bool) (w : Z -> Z) : noSmallerAfter lq (contents w (Slice 0 n)) ->
  forall a b, 0 <= a -> a < b -> b < n -> lq (w b) (w a) = false.
Proof.
  intros H a b Ha Hab Hbn. unfold noSmallerAfter in H. rewrite contents_seg in H. cbn [off len] in H.
  apply (sorted_ascending _ _ _ _ H); lia.
Qed.

Lemma reads_all M tr s : traced (lswCall pl tn lt cap n m) M tr s -> returned s tt -> exists t, In (EvRead t i) tr.
Proof.
  intros (mg & Hmg & H) Hr.
  destruct (existsb (fun e => match e with EvRead _ x => x =? i | _ => false end) tr) eqn:E.
  { apply existsb_exists in E. destruct E as (e & He & Hx). destruct e as [|t x| | | |]; try discriminate.
    apply Z.eqb_eq in Hx. subst. eauto. }
  exfalso.
  assert (HN : forall t, ~ In (EvRead t i) tr).
  { intros t Ht. assert (X : existsb (fun e => match e with EvRead _ x => x =? i | _ => false end) tr = true).
    { apply existsb_exists. exists (EvRead t i). split; [exact Ht|apply Z.eqb_refl]. }
    congruence. }
  set (C1 := lswCall pl tn lt cap n m) in *. set (C2 := lswCall pl tn ltx cap n (fun j => j)).
  destruct (texec_sime (R := unit) others (cProcs C1) (cProcs C2)) with (Rg := fun x => cellsOf (Slice 0 n) x /\ x <> i) (M := M)
    (Ce := cellsOf (Slice 0 n)) (tr := tr) (s0 := start (cProg C1) (cInit C1) mg) (t0 := start (cProg C2) (cInit C2) mg) (s := s) as (t & Ht & Hs).
  - intro p. apply (s_body (Wd := pword pl)). exact others_cmp.
  - intros x [Hx _]. exact Hx.
  - intros tr' t' Ht' x w Hx.
    destruct (any_comparison pl tn Z ltx cap n (fun j => j) M (length tr') t' Hpl Htn (proj1 ltx_ok) ltac:(lia) Hb) as (_ & _ & HB & _);
      [exists mg; split; [exact Hmg|apply texec_exec; exact Ht']|]. apply HB in Hx. unfold cellsOf. cbn [off len]. lia.
  - intros u x Hx Hc. split; [exact Hc|]. intros ->. exact (HN u Hx).
  - split; [apply (s_sort (Wd := pword pl)); exact others_cmp|]. split; [constructor|]. repeat split.
    all: try (destruct H0 as [H0 H1]; unfold cellsOf in H0; cbn in *; first [lia|exact H1]).
  - exact H.
  - apply texec_exec in Ht. assert (Hret : returned t tt) by (apply (ssim_returned _ _ _ _ tt Hs); exact Hr).
    destruct (sorted_by pl tn Z ltx extreme cap n (fun j => j) M (length tr) t Hpl Htn ltx_ok ltac:(lia) Hb) as [HP HS];
      [exists mg; split; assumption|exact Hret|].
    destruct Hs as (_ & _ & _ & _ & _ & HV0).
    assert (W : exists w : Z -> Z, Permutation (contents w (Slice 0 n)) (contents (fun j => j) (Slice 0 n)) /\
      noSmallerAfter extreme (contents w (Slice 0 n)) /\ forall x, 0 <= x < n -> x <> i -> w x <> i).
    { exists (mem (sh t)). split; [exact HP|]. split; [exact HS|]. intros x Hx Nx. apply HV0. split; [exact Hx|exact Nx]. }
    clear -W Hi Hn. destruct W as (w & HP & HS & HV).
    assert (Hin : In i (contents w (Slice 0 n))) by (eapply Permutation_in; [symmetry; exact HP|apply (in_contents (fun j => j)); exact Hi]).
    assert (Ei : w i = i).
    { unfold contents in Hin. apply in_map_iff in Hin. destruct Hin as (a & Ea & Ha). apply in_seq in Ha. cbn [off len] in *.
      destruct (Z.eq_dec (0 + Z.of_nat a) i) as [Eq|Ne]; [rewrite Eq in Ea; exact Ea|].
      destruct (HV (0 + Z.of_nat a) ltac:(lia) Ne Ea). }
    assert (HO := sorted_at _ _ HS). unfold extreme in HO. destruct (Z.ltb_spec 0 i) as [Hp|Hz].
    + specialize (HO 0 i ltac:(lia) Hp ltac:(lia)). rewrite Ei, Z.eqb_refl, (proj2 (Z.eqb_neq _ _) (HV 0 ltac:(lia) ltac:(lia))) in HO. discriminate.
    + assert (i = 0) by lia. specialize (HO i 1 ltac:(lia) ltac:(lia) ltac:(lia)).
      rewrite Ei, Z.eqb_refl, (proj2 (Z.eqb_neq _ _) (HV 1 ltac:(lia) ltac:(lia))) in HO. discriminate.
Qed.
End Looks.
