(** * What collections that compare alike go through *)

From Coq Require Import List ZArith Lia Bool Permutation Sorting.
From Verif Require Import Lang Kinds Typed Trace Spec Lsw Calls Guarantee TopFacts TraceFacts Alike.
Import ListNotations.
Open Scope Z_scope.

(** ** Specification *)

(** The first [n] elements of [m1] and [m2] compare alike, position by position. *)
Definition compareAlike {T1 T2} (lt1 : T1 -> T1 -> bool) (m1 : Z -> T1) (lt2 : T2 -> T2 -> bool) (m2 : Z -> T2) (n : Z) : Prop :=
  forall i j, 0 <= i < n -> 0 <= j < n -> lt1 (m1 i) (m1 j) = lt2 (m2 i) (m2 j).

(** In states [s1] and [s2] the collections are rearranged alike: position [i] holds what was at [f i]. *)
Definition rearranged {P T1 T2} (f : Z -> Z) (m1 : Z -> T1) (m2 : Z -> T2) (n : Z) (s1 : st P T1 unit) (s2 : st P T2 unit) : Prop :=
  forall i, 0 <= i < n -> 0 <= f i < n /\ mem (sh s1) i = m1 (f i) /\ mem (sh s2) i = m2 (f i).

(** A strict weak order among the elements of [l]; how other values compare does not matter. *)
Definition weakAmong {T} (lt : T -> T -> bool) (l : list T) : Prop :=
  (forall x y, In x l -> In y l -> lt x y = true -> lt y x = false) /\
  (forall x y z, In x l -> In y l -> In z l -> lt y x = false -> lt z y = false -> lt z x = false).

(** ** Proofs *)

Lemma in_contents {T} (m : Z -> T) n i : 0 <= i < n -> In (m i) (contents m (Slice 0 n)).
Proof.
  intro H. unfold contents. cbn [off len]. apply in_map_iff. exists (Z.to_nat i). split; [f_equal; lia|]. apply in_seq. lia.
Qed.

Lemma contents_via {T} (m : Z -> T) (w : Z -> T) (f : Z -> Z) n : (forall i, 0 <= i < n -> w i = m (f i)) ->
  contents w (Slice 0 n) = map m (contents f (Slice 0 n)).
Proof.
  intro H. unfold contents. cbn [off len]. rewrite map_map. apply map_ext_in. intros a Ha. apply in_seq in Ha. apply H. lia.
Qed.

Section Top.
Variables (pl : plat) (tn : tuning).
Hypothesis Hpl : platOk pl.
Hypothesis Htn : tuningOk pl tn.
Variables (cap n : Z).
Hypothesis Hn : 0 <= n <= cap.
Hypothesis Hb : 11 * n + 18 < 10 * intSize pl.

(** Sorting positions. *)
Definition clamp (j : Z) : Z := Z.max 0 (Z.min j (n - 1)).
Definition posLt {T} (lt : T -> T -> bool) (m : Z -> T) (j k : Z) : bool := (0 <? n) && lt (m (clamp j)) (m (clamp k)).

Lemma clamp_id j : 0 <= j < n -> clamp j = j.
Proof. unfold clamp. lia. Qed.

Lemma clamp_in j : 0 < n -> 0 <= clamp j < n.
Proof. unfold clamp. lia. Qed.

Lemma posLt_irr {T} (lt : T -> T -> bool) m : (forall i, 0 <= i < n -> lt (m i) (m i) = false) -> irreflexive (posLt lt m).
Proof. intros H j. unfold posLt. destruct (Z.ltb_spec 0 n); [|reflexivity]. apply H, clamp_in. assumption. Qed.

Lemma posLt_weak {T} (lt : T -> T -> bool) m : weakAmong lt (contents m (Slice 0 n)) -> weakOrder (posLt lt m).
Proof.
  intros [H1 H2]. unfold posLt. destruct (Z.ltb_spec 0 n) as [H|H]; cbn [andb]; [|split; auto; discriminate].
  assert (I : forall j, In (m (clamp j)) (contents m (Slice 0 n))) by (intro j; apply in_contents, clamp_in, H).
  split; eauto.
Qed.

Section One.
Context {T : Type}.
Variables (lt : T -> T -> bool) (ltp : Z -> Z -> bool) (m : Z -> T).
Hypothesis Hcmp : forall j k, 0 <= j < n -> 0 <= k < n -> ltp j k = lt (m j) (m k).
Hypothesis Hirr : irreflexive ltp.

Let V (j : Z) (x : T) : Prop := 0 <= j < n /\ x = m j.
Let Cp := lswCall pl tn ltp cap n (fun i => i).
Let C := lswCall pl tn lt cap n m.

Lemma pos_cmp j x k y : V j x -> V k y -> ltp j k = lt x y.
Proof. intros [Hj ->] [Hk ->]. apply Hcmp; assumption. Qed.

Lemma pos_cmp' x j y k : V j x -> V k y -> lt x y = ltp j k.
Proof. intros [Hj ->] [Hk ->]. symmetry. apply Hcmp; assumption. Qed.

Lemma pos_start mg : ssim V (cellsOf (Slice 0 n)) (start (cProg Cp) (cInit Cp) mg) (start (cProg C) (cInit C) mg).
Proof.
  split; [apply (s_sort (Wd := pword pl)); exact pos_cmp|]. split; [constructor|]. repeat split.
  all: unfold cellsOf in H; cbn in *; lia.
Qed.

Lemma pos_start' mg : ssim (fun x j => V j x) (cellsOf (Slice 0 n)) (start (cProg C) (cInit C) mg) (start (cProg Cp) (cInit Cp) mg).
Proof.
  split; [apply (s_sort (Wd := pword pl)); exact pos_cmp'|]. split; [constructor|]. repeat split.
  all: unfold cellsOf in H; cbn in *; lia.
Qed.

Lemma pos_bounds M k s : reach Cp M k s -> forall x w, In (Some (x, w)) (accesses s) -> cellsOf (Slice 0 n) x.
Proof.
  intros H x w Hin. destruct (any_comparison pl tn Z ltp cap n (fun i => i) M k s Hpl Htn Hirr Hn Hb H) as (_ & _ & HB & _).
  apply HB in Hin. unfold cellsOf. cbn [off len]. lia.
Qed.

Lemma to_pos M tr s : traced C M tr s -> exists s', traced Cp M tr s' /\ ssim (fun x j => V j x) (cellsOf (Slice 0 n)) s s'.
Proof.
  intros (mg & Hmg & H).
  destruct (texec_simr (R := unit) (fun x j => V j x) (cProcs C) (cProcs Cp)) with (Rg := cellsOf (Slice 0 n)) (M := M) (tr := tr)
    (s0 := start (cProg C) (cInit C) mg) (t0 := start (cProg Cp) (cInit Cp) mg) (s := s) as (t & Ht & Hs).
  - intro p. apply (s_body (Wd := pword pl)). exact pos_cmp'.
  - intros tr' t' Ht'. apply (pos_bounds M (length tr')). exists mg. split; [exact Hmg|]. apply texec_exec. exact Ht'.
  - apply pos_start'.
  - exact H.
  - exists t. split; [exists mg; split; assumption|exact Hs].
Qed.

Lemma from_pos M tr s' : traced Cp M tr s' -> exists s, traced C M tr s /\ ssim V (cellsOf (Slice 0 n)) s' s.
Proof.
  intros (mg & Hmg & H).
  destruct (texec_sim (R := unit) V (cProcs Cp) (cProcs C)) with (Rg := cellsOf (Slice 0 n)) (M := M) (tr := tr)
    (s0 := start (cProg Cp) (cInit Cp) mg) (t0 := start (cProg C) (cInit C) mg) (s := s') as (t & Ht & Hs).
  - intro p. apply (s_body (Wd := pword pl)). exact pos_cmp.
  - intros tr' t' Ht'. apply (pos_bounds M (length tr')). exists mg. split; [exact Hmg|]. apply texec_exec. exact Ht'.
  - apply pos_start.
  - exact H.
  - exists t. split; [exists mg; split; assumption|exact Hs].
Qed.

(** An execution of the one from where the other has got to. *)
Lemma go_on M k s s' j t' : ssim (fun x j => V j x) (cellsOf (Slice 0 n)) s s' -> reach Cp M k s' ->
  exec (cProcs Cp) M (cCells Cp) j s' t' -> exists t, exec (cProcs C) M (cCells C) j s t /\ ssim V (cellsOf (Slice 0 n)) t' t.
Proof.
  intros Hs Hr H. destruct (exec_texec _ _ _ _ _ _ H) as (tr & Ej & Ht).
  destruct (texec_sim (R := unit) V (cProcs Cp) (cProcs C)) with (Rg := cellsOf (Slice 0 n)) (M := M) (tr := tr)
    (s0 := s') (t0 := s) (s := t') as (t & Ht2 & Hs2).
  - intro p. apply (s_body (Wd := pword pl)). exact pos_cmp.
  - intros tr' u Hu. destruct Hr as (mg & Hmg & Hr). apply (pos_bounds M (length tr' + k)). exists mg. split; [exact Hmg|].
    eapply exec_trans; [exact Hr|]. apply texec_exec. exact Hu.
  - destruct Hs as (A & B & D & E & F & G). split; [eapply csim_flip; [exact A|intros; congruence]|].
    split; [|repeat split; try congruence; apply G; assumption].
    clear -B. induction B as [|x y l l' Hx _ IH]; constructor; [eapply csim_flip; [exact Hx|intros; congruence]|exact IH].
  - exact Ht.
  - exists t. split; [|exact Hs2]. rewrite <- Ej. apply texec_exec. exact Ht2.
Qed.
End One.

Lemma alike_traced T1 T2 (lt1 : T1 -> T1 -> bool) (lt2 : T2 -> T2 -> bool) m1 m2 M tr s1 :
  (forall i, 0 <= i < n -> lt1 (m1 i) (m1 i) = false) -> compareAlike lt1 m1 lt2 m2 n ->
  traced (lswCall pl tn lt1 cap n m1) M tr s1 ->
  exists s2 f, traced (lswCall pl tn lt2 cap n m2) M tr s2 /\ rearranged f m1 m2 n s1 s2 /\
    accesses s1 = accesses s2 /\ ngor (sh s1) = ngor (sh s2) /\ maxg (sh s1) = maxg (sh s2) /\ (returned s1 tt <-> returned s2 tt) /\
    (returned s1 tt -> Permutation (contents f (Slice 0 n)) (contents (fun i => i) (Slice 0 n))).
Proof.
  intros Hirr Hal H. set (lp := posLt lt1 m1).
  assert (Hlp : irreflexive lp) by (apply posLt_irr; exact Hirr).
  assert (C1 : forall j k, 0 <= j < n -> 0 <= k < n -> lp j k = lt1 (m1 j) (m1 k)).
  { intros j k Hj Hk. unfold lp, posLt. rewrite !clamp_id by assumption. destruct (Z.ltb_spec 0 n); [reflexivity|lia]. }
  assert (C2 : forall j k, 0 <= j < n -> 0 <= k < n -> lp j k = lt2 (m2 j) (m2 k)).
  { intros j k Hj Hk. rewrite C1 by assumption. apply Hal; assumption. }
  destruct (to_pos lt1 lp m1 C1 Hlp M tr s1 H) as (sp & Hp & S1).
  destruct (from_pos lt2 lp m2 C2 Hlp M tr sp Hp) as (s2 & H2 & S2).
  exists s2, (mem (sh sp)). split; [exact H2|]. split.
  { intros i Hi. destruct S1 as (_ & _ & _ & _ & _ & V1). destruct S2 as (_ & _ & _ & _ & _ & V2).
    assert (Hc : cellsOf (Slice 0 n) i) by exact Hi. split; [apply V1; exact Hc|]. split; [apply V1; exact Hc|apply V2; exact Hc]. }
  split; [rewrite (ssim_accesses _ _ _ _ S1); eapply ssim_accesses; exact S2|].
  assert (R1 := ssim_returned _ _ s1 sp tt S1). assert (R2 := ssim_returned _ _ sp s2 tt S2).
  split; [destruct S1 as (_ & _ & -> & _); apply S2|]. split; [destruct S1 as (_ & _ & _ & -> & _); apply S2|]. split; [tauto|].
  intro Hr. destruct Hp as (mg & Hmg & Hp). apply texec_exec in Hp.
  destruct (any_comparison pl tn Z lp cap n (fun i => i) M (length tr) sp Hpl Htn Hlp Hn Hb) as (_ & _ & _ & _ & _ & G); [exists mg; split; assumption|].
  apply G. apply R1. exact Hr.
Qed.

Lemma present_sorted T (lt : T -> T -> bool) m0 M k s : weakAmong lt (contents m0 (Slice 0 n)) ->
  let C := lswCall pl tn lt cap n m0 in reach C M k s ->
  ~ panicked s /\ ~ race s /\ (forall x w, In (Some (x, w)) (accesses s) -> 0 <= x < n) /\ Z.of_nat k <= 100 * n * n + 6 * n + 20 /\
  (exists j s', exec (cProcs C) M (cCells C) j s s' /\ returned s' tt) /\
  (returned s tt -> Permutation (contents (mem (sh s)) (Slice 0 n)) (contents m0 (Slice 0 n)) /\
     noSmallerAfter lt (contents (mem (sh s)) (Slice 0 n))).
Proof.
  intros Hlt C H. apply reach_traced in H. destruct H as (tr & <- & H). set (lp := posLt lt m0).
  assert (Hw : weakOrder lp) by (apply posLt_weak; exact Hlt).
  assert (Hlp : irreflexive lp) by (intro x; destruct (lp x x) eqn:E; [|reflexivity]; rewrite (proj1 Hw x x E) in E; discriminate).
  assert (C1 : forall j k, 0 <= j < n -> 0 <= k < n -> lp j k = lt (m0 j) (m0 k)).
  { intros j k Hj Hk. unfold lp, posLt. rewrite !clamp_id by assumption. destruct (Z.ltb_spec 0 n); [reflexivity|lia]. }
  destruct (to_pos lt lp m0 C1 Hlp M tr s H) as (sp & Hp & S1).
  assert (Hr : reach (lswCall pl tn lp cap n (fun i => i)) M (length tr) sp) by (apply reach_traced; exists tr; split; [reflexivity|exact Hp]).
  destruct (any_comparison pl tn Z lp cap n (fun i => i) M (length tr) sp Hpl Htn Hlp Hn Hb Hr) as (A1 & A2 & A3 & A4 & A5 & _).
  assert (EA := ssim_accesses _ _ _ _ S1).
  split; [intro X; apply A1; apply (ssim_panicked _ _ _ _ S1); exact X|].
  split; [unfold race in *; rewrite EA; exact A2|]. split; [rewrite EA; exact A3|]. split; [exact A4|]. split.
  - destruct A5 as (j & t' & He & Ht). destruct (go_on lt lp m0 C1 Hlp M (length tr) s sp j t' S1 Hr He) as (t & He2 & S2).
    exists j, t. split; [exact He2|]. apply (ssim_returned _ _ _ _ tt S2). exact Ht.
  - intro Hret. apply (ssim_returned _ _ _ _ tt S1) in Hret.
    destruct (sorted_by pl tn Z lp lp cap n (fun i => i) M (length tr) sp Hpl Htn (consistent_self _ Hw) Hn Hb Hr Hret) as [G1 G2].
    destruct S1 as (_ & _ & _ & _ & _ & V1).
    assert (E : contents (mem (sh s)) (Slice 0 n) = map m0 (contents (mem (sh sp)) (Slice 0 n))) by (apply contents_via; intros i Hi; apply V1; exact Hi).
    assert (E0 : contents m0 (Slice 0 n) = map m0 (contents (fun i => i) (Slice 0 n))) by (apply contents_via; reflexivity).
    rewrite E. split; [rewrite E0; apply Permutation_map; exact G1|].
    assert (F : Forall (fun j => 0 <= j < n) (contents (mem (sh sp)) (Slice 0 n))).
    { apply Forall_forall. intros j Hj. unfold contents in Hj. apply in_map_iff in Hj. destruct Hj as (a & <- & Ha). apply in_seq in Ha.
      cbn [off len] in *. apply V1. unfold cellsOf. cbn [off len]. lia. }
    clear E G1. revert F G2. unfold noSmallerAfter. induction (contents (mem (sh sp)) (Slice 0 n)) as [|j l IH]; intros F G; [constructor|].
    inversion F as [|? ? Fj Fl]; subst. inversion G as [|? ? Gl Gj]; subst. cbn [map]. constructor; [apply IH; assumption|].
    apply Forall_map. rewrite Forall_forall in *. intros k Hk. rewrite <- C1 by auto. apply Gj. exact Hk.
Qed.
End Top.

(** Elements of which only a part is compared: that part goes through what it would go through alone. *)
Lemma part_traced pl tn T1 T2 (h : T1 -> T2) (lt : T2 -> T2 -> bool) cap n m M tr : platOk pl -> tuningOk pl tn -> 0 <= n <= cap ->
  11 * n + 18 < 10 * intSize pl -> (forall i, 0 <= i < n -> lt (h (m i)) (h (m i)) = false) ->
  let C1 := lswCall pl tn (fun x y => lt (h x) (h y)) cap n m in let C2 := lswCall pl tn lt cap n (fun i => h (m i)) in
  (forall s1, traced C1 M tr s1 -> exists s2, traced C2 M tr s2 /\ (returned s1 tt <-> returned s2 tt) /\
     map h (contents (mem (sh s1)) (Slice 0 n)) = contents (mem (sh s2)) (Slice 0 n)) /\
  (forall s2, traced C2 M tr s2 -> exists s1, traced C1 M tr s1 /\ (returned s1 tt <-> returned s2 tt) /\
     map h (contents (mem (sh s1)) (Slice 0 n)) = contents (mem (sh s2)) (Slice 0 n)).
Proof.
  intros Hpl Htn Hn Hb Hirr C1 C2. split.
  - intros s1 H. destruct (alike_traced pl tn Hpl Htn cap n Hn Hb T1 T2 (fun x y => lt (h x) (h y)) lt m (fun i => h (m i)) M tr s1) as (s2 & f & A & B & _ & _ & _ & R & _);
      [exact Hirr|intros i j _ _; reflexivity|exact H|].
    exists s2. split; [exact A|]. split; [exact R|]. unfold contents. rewrite map_map. apply map_ext_in. intros a Ha. apply in_seq in Ha.
    cbn [off len] in *. assert (E := B (0 + Z.of_nat a) ltac:(lia)). destruct E as (_ & E1 & E2). exact (eq_trans (f_equal h E1) (eq_sym E2)).
  - intros s2 H. destruct (alike_traced pl tn Hpl Htn cap n Hn Hb T2 T1 lt (fun x y => lt (h x) (h y)) (fun i => h (m i)) m M tr s2) as (s1 & f & A & B & _ & _ & _ & R & _);
      [exact Hirr|intros i j _ _; reflexivity|exact H|].
    exists s1. split; [exact A|]. split; [tauto|]. unfold contents. rewrite map_map. apply map_ext_in. intros a Ha. apply in_seq in Ha.
    cbn [off len] in *. assert (E := B (0 + Z.of_nat a) ltac:(lia)). destruct E as (_ & E1 & E2). exact (eq_trans (f_equal h E2) (eq_sym E1)).
Qed.
