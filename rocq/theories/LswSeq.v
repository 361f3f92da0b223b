(** * Lesswap calls, insertion sort and pivot selection of sortyLsw.go *)

From Coq Require Import List ZArith Lia Bool Permutation.
From Verif Require Import Lang SeqLogic Base Scalar Typed SeqOps ScalarFacts TypedPart TypedPivot
  TypedShort Spec Lsw.
Import ListNotations.
Open Scope Z_scope.

Local Arguments Z.mul : simpl never.
Local Arguments Z.add : simpl never.
Local Arguments Z.sub : simpl never.
Local Arguments Z.pow : simpl never.

(** The order as a [kind] without separate keys, so that what was proved about the typed
    sorters independently of their code can be used here. *)
Definition lkind {T} (lt : T -> T -> bool) : kind T T :=
  Kind (fun x => x) lt (fun x y => negb (lt y x)) (fun x _ => x) false true.

Definition okAll {T} (_ : T) : Prop := True.

Lemma lkind_laws {T} (lt : T -> T -> bool) : weakOrder lt -> laws (lkind lt) okAll.
Proof.
  intros [Ha Ht]. split; simpl; intros.
  - reflexivity.
  - auto.
  - apply negb_true_iff. apply (Ht x y z); apply negb_true_iff; assumption.
  - discriminate.
Qed.

Lemma swapv_step {T} (v : Z -> T) f s i j k : 0 < s ->
  swapv v (f + i * s) (f + j * s) (f + k * s) = swapv (fun x => v (f + x * s)) i j k.
Proof.
  intro Hs. unfold swapv, upd.
  assert (E : forall a b, (f + a * s =? f + b * s) = (a =? b)).
  { intros a b. destruct (Z.eqb_spec a b) as [->|Hn]; [apply Z.eqb_refl|].
    apply Z.eqb_neq. intro E. apply Hn. nia. }
  rewrite !E. reflexivity.
Qed.

Section Seq.
Context {Wd : word}.
Context {T : Type}.
(* [lt] is the comparison made by the Lesswap function, [lq] an order it is consistent with. *)
Variables lt lq : T -> T -> bool.
Hypothesis Hlt : consistent lt lq.
Variable cap : Z.
Variable body : lproc -> cmd lproc T unit.
Notation swp := (swp body).

Lemma lt_irr x : lt x x = false.
Proof. apply Hlt. Qed.

Lemma lt_weak x y : lt x y = false -> lq x y = false.
Proof.
  intro E. destruct Hlt as (_ & _ & H & _). destruct (lq x y) eqn:F; [|reflexivity].
  rewrite (H x y F) in E. discriminate.
Qed.

Lemma lq_irr x : lq x x = false.
Proof. apply lt_weak, lt_irr. Qed.

Lemma lt_asym x y : lt x y = true -> lq y x = false.
Proof. apply Hlt. Qed.

Lemma ge_trans x y z : lq y x = false -> lq z y = false -> lq z x = false.
Proof. destruct Hlt as (_ & [_ H] & _). apply H. Qed.

Lemma swp_cget D n (Rd Wr : Z -> Prop) (Q : T -> nat -> (Z -> T) -> Prop) i v :
  (0 < n)%nat -> 0 <= i < cap -> Rd i -> Q (v i) (n - 1)%nat v -> swp D n Rd Wr Q (cget cap i) v.
Proof.
  intros Hn Hi HR HQ. unfold cget. destruct (Z.leb_spec 0 i); [|lia].
  destruct (Z.ltb_spec i cap); [|lia]. simpl. apply swp_read; auto. apply swp_ret; auto.
Qed.

Lemma swp_cset D n (Rd Wr : Z -> Prop) (Q : unit -> nat -> (Z -> T) -> Prop) i x v :
  (0 < n)%nat -> 0 <= i < cap -> Wr i -> Q tt (n - 1)%nat (upd v i x) ->
  swp D n Rd Wr Q (cset cap i x) v.
Proof.
  intros Hn Hi HR HQ. unfold cset. destruct (Z.leb_spec 0 i); [|lia].
  destruct (Z.ltb_spec i cap); [|lia]. simpl. apply swp_write; auto. apply swp_ret; auto.
Qed.

Lemma lsw_strict i k r s : 0 <= r < cap -> 0 <= s < cap -> lsw lt cap i k r s =
  (x <- cget cap i ;; y <- cget cap k ;;
   if lt x y then
     if r =? s then Ret true
     else a <- cget cap s ;; b <- cget cap r ;; cset cap r a ;;; cset cap s b ;;; Ret true
   else Ret false)%cmd.
Proof.
  intros Hr Hs. unfold lsw. destruct (Z.leb_spec 0 r); [|lia]. destruct (Z.ltb_spec r cap); [|lia].
  destruct (Z.leb_spec 0 s); [|lia]. destruct (Z.ltb_spec s cap); [|lia]. reflexivity.
Qed.

(** lsw(i, k, r, r): a comparison. *)
Lemma swp_test D n (Rd Wr : Z -> Prop) (Q : bool -> nat -> (Z -> T) -> Prop) i k r v :
  (1 < n)%nat -> 0 <= i < cap -> 0 <= k < cap -> 0 <= r < cap -> Rd i -> Rd k ->
  (forall b, lt (v i) (v k) = b -> Q b (n - 2)%nat v) ->
  swp D n Rd Wr Q (lsw lt cap i k r r) v.
Proof.
  intros Hn Hi Hk Hr Ri Rk HQ. rewrite lsw_strict by assumption.
  apply swp_bind, swp_cget; [lia|lia|assumption|].
  apply swp_bind, swp_cget; [lia|lia|assumption|].
  rewrite Z.eqb_refl. replace (n - 1 - 1)%nat with (n - 2)%nat by lia.
  specialize (HQ _ eq_refl). destruct (lt (v i) (v k)); apply swp_ret; exact HQ.
Qed.

(** lsw(i, k, r, s) with r <> s. *)
Lemma swp_lsw D n (Rd Wr : Z -> Prop) (Q : bool -> nat -> (Z -> T) -> Prop) i k r s v :
  (5 < n)%nat -> 0 <= i < cap -> 0 <= k < cap -> 0 <= r < cap -> 0 <= s < cap ->
  Rd i -> Rd k -> r <> s ->
  (lt (v i) (v k) = true -> Rd r /\ Rd s /\ Wr r /\ Wr s) ->
  (lt (v i) (v k) = true -> Q true (n - 6)%nat (swapv v r s)) ->
  (lt (v i) (v k) = false -> Q false (n - 2)%nat v) ->
  swp D n Rd Wr Q (lsw lt cap i k r s) v.
Proof.
  intros Hn Hi Hk Br Bs Ri Rk Hrs Hp Ht Hf. rewrite lsw_strict by assumption.
  apply swp_bind, swp_cget; [lia|lia|assumption|].
  apply swp_bind, swp_cget; [lia|lia|assumption|].
  destruct (lt (v i) (v k)).
  - destruct (Hp eq_refl) as (Rr & Rs & Wr' & Ws').
    destruct (Z.eqb_spec r s); [contradiction|].
    apply swp_bind, swp_cget; [lia|lia|assumption|].
    apply swp_bind, swp_cget; [lia|lia|assumption|].
    apply swp_bind, swp_cset; [lia|lia|assumption|].
    apply swp_bind, swp_cset; [lia|lia|assumption|].
    apply swp_ret. replace (n - 1 - 1 - 1 - 1 - 1 - 1)%nat with (n - 6)%nat by lia. exact (Ht eq_refl).
  - apply swp_ret. replace (n - 1 - 1)%nat with (n - 2)%nat by lia. auto.
Qed.

(** lsw(i, k, i, k): exchange if out of order; also fine for i = k. *)
Lemma swp_order D n (Rd Wr : Z -> Prop) (Q : bool -> nat -> (Z -> T) -> Prop) i k v :
  (5 < n)%nat -> 0 <= i < cap -> 0 <= k < cap -> Rd i -> Rd k -> Wr i -> Wr k ->
  (lt (v i) (v k) = true -> i <> k -> Q true (n - 6)%nat (swapv v i k)) ->
  (lt (v i) (v k) = false -> Q false (n - 2)%nat v) ->
  swp D n Rd Wr Q (lsw lt cap i k i k) v.
Proof.
  intros Hn Hi Hk Ri Rk Wi Wk Ht Hf. destruct (Z.eq_dec i k) as [->|Hne].
  - apply swp_test; auto; [lia|]. intros b Hb. rewrite lt_irr in Hb. subst b. apply Hf, lt_irr.
  - apply swp_lsw; auto 10.
Qed.

(** ** Insertion sort with a step *)

Definition insLoop (step first last : Z) : cmd lproc T unit :=
  (Loop (first + step) (fun h =>
    if h <=? last then
      Loop h (fun l =>
        b <- lsw lt cap l (l - step) l (l - step) ;;
        if b : bool then
          let l := l - step in if l <=? first then done tt else goto l
        else done tt) ;;;
      goto (iw (h + step))
    else done tt))%cmd.

Lemma lswInsertion_loop lo hi : lswInsertion lt cap lo hi = insLoop 1 lo hi.
Proof. reflexivity. Qed.
Lemma lswSamples_loop first step last : lswSamples lt cap first step last = insLoop step first last.
Proof. reflexivity. Qed.

(** The cells first + j*step, j = 0..m-1, as a sequence. *)
Definition nthOf (first step : Z) (v : Z -> T) (j : Z) : T := v (first + j * step).
Definition stepReg (first step m i : Z) : Prop := exists j, 0 <= j < m /\ i = first + j * step.

Section Ins.
Variables first step m a b : Z.
Hypothesis Hstep : 1 <= step.
Hypothesis Hm : 1 <= m.
Hypothesis Ha : a <= first.
Hypothesis Ha0 : 0 <= a.
Hypothesis Hb : first + (m - 1) * step < b.
Hypothesis Hbc : b <= cap.
Hypothesis Hwrap : first + m * step < 2 * wq.
Notation sreg := (stepReg first step m).
Notation N := (nthOf first step).

Lemma step_in j : 0 <= j < m -> a <= first + j * step < b.
Proof. intro Hj. nia. Qed.

Lemma ins_inner v0 jh D :
  1 <= jh < m ->
  forall l v n, l = first + jh * step ->
  bubble lt (seg (N v0) 0 m) (seg (N v) 0 m) -> permR a b v0 v ->
  ascending lq 0 jh (N v) ->
  7 * (jh + 2) <= Z.of_nat n ->
  swp D n sreg sreg
    (fun _ _ v' => bubble lt (seg (N v0) 0 m) (seg (N v') 0 m) /\ permR a b v0 v' /\
                   ascending lq 0 (jh + 1) (N v'))
    (Loop l (fun l =>
        b <- lsw lt cap l (l - step) l (l - step) ;;
        if b : bool then
          let l := l - step in if l <=? first then done tt else goto l
        else done tt)%cmd) v.
Proof.
  intros Hjh l v n -> Hbub Hp Hasc Hn.
  apply (swp_loop_var body D 6 sreg sreg
    (fun l v => exists j, l = first + j * step /\ 1 <= j <= jh /\
       bubble lt (seg (N v0) 0 m) (seg (N v) 0 m) /\ permR a b v0 v /\
       (forall i k, 0 <= i -> i < k -> k <= jh -> k <> j -> lq (N v k) (N v i) = false))
    (fun l => Z.max 0 ((l - first) / step))
    (fun _ v' => bubble lt (seg (N v0) 0 m) (seg (N v') 0 m) /\ permR a b v0 v' /\
                   ascending lq 0 (jh + 1) (N v'))).
  - clear v n Hbub Hp Hasc Hn. intros l v (j & -> & Hj & Hbub & Hp & Hs).
    replace (first + j * step - step) with (first + (j - 1) * step) by lia.
    assert (Bj := step_in j ltac:(lia)). assert (Bj' := step_in (j - 1) ltac:(lia)).
    assert (Rj : sreg (first + j * step)) by (exists j; lia).
    assert (Rj' : sreg (first + (j - 1) * step)) by (exists (j - 1); lia).
    assert (Hne : first + j * step <> first + (j - 1) * step) by nia.
    apply swp_bind, swp_lsw; [lia|lia|lia|lia|lia|auto|auto|auto| | |].
    + intros _. repeat split; auto; lia.
    + intro E. cbv zeta.
      set (v' := swapv v (first + j * step) (first + (j - 1) * step)).
      assert (EN : forall k, N v' k = swapv (N v) (j - 1) (j - 1 + 1) k).
      { intro k. unfold nthOf, v'. rewrite swapv_step by lia.
        replace (j - 1 + 1) with j by lia. unfold swapv, upd.
        destruct (Z.eqb_spec k (j - 1)), (Z.eqb_spec k j); try lia; subst; auto. }
      assert (Hbub' : bubble lt (seg (N v0) 0 m) (seg (N v') 0 m)).
      { eapply bubble_trans; [exact Hbub|].
        rewrite (seg_ext (N v') (swapv (N v) (j - 1) (j - 1 + 1))) by (intros; apply EN).
        apply bubble_seg_swap; [lia|lia|]. replace (j - 1 + 1) with j by lia. exact E. }
      assert (Hp' : permR a b v0 v').
      { eapply permR_trans; [exact Hp|]. apply permR_swap; lia. }
      assert (Hs' : forall i k, 0 <= i -> i < k -> k <= jh -> k <> j - 1 -> lq (N v' k) (N v' i) = false).
      { intros i k Hi Hik Hk Hne'. rewrite !EN. replace (j - 1 + 1) with j by lia.
        destruct (Z.eq_dec k j) as [->|Hkj].
        - rewrite swapv_r. destruct (Z.eq_dec i (j - 1)) as [->|Hij].
          + rewrite swapv_l. apply lt_asym. exact E.
          + rewrite swapv_o by lia. apply Hs; lia.
        - rewrite (swapv_o (N v) (j - 1) j k) by lia.
          destruct (Z.eq_dec i (j - 1)) as [->|Hij]; [rewrite swapv_l; apply Hs; lia|].
          destruct (Z.eq_dec i j) as [->|Hij']; [rewrite swapv_r; apply Hs; lia|].
          rewrite swapv_o by lia. apply Hs; lia. }
      destruct (Z.leb_spec (first + (j - 1) * step) first) as [C|C]; apply swp_ret.
      * split; [exact Hbub'|]. split; [exact Hp'|]. assert (j = 1) by nia. subst j.
        intros i k Hi Hik Hk. apply Hs'; lia.
      * split; [exists (j - 1); split; [reflexivity|]; split; [nia|]; auto|].
        replace (first + (j - 1) * step - first) with ((j - 1) * step) by lia.
        replace (first + j * step - first) with (j * step) by lia.
        rewrite !Z.div_mul by lia. lia.
    + intro E. apply swp_ret. split; [exact Hbub|]. split; [exact Hp|].
      intros i k Hi Hik Hk. destruct (Z.eq_dec k j) as [->|]; [|apply Hs; lia].
      destruct (Z.eq_dec i (j - 1)) as [->|]; [apply lt_weak; exact E|].
      apply (ge_trans (N v i) (N v (j - 1)) (N v j)); [apply Hs; lia|apply lt_weak; exact E].
  - exists jh. split; [reflexivity|]. split; [lia|]. split; [exact Hbub|]. split; [exact Hp|].
    intros i k Hi Hik Hk Hne. apply Hasc; lia.
  - lia.
  - replace (first + jh * step - first) with (jh * step) by lia. rewrite Z.div_mul by lia. lia.
Qed.

Definition cIns2 (m : Z) : Z := (7 * m + 16) * (m + 1).

Lemma swp_insLoop v0 D last : last = first + (m - 1) * step ->
  swp D (Z.to_nat (cIns2 m)) sreg sreg
    (fun _ _ v' => bubble lt (seg (N v0) 0 m) (seg (N v') 0 m) /\ permR a b v0 v' /\
                   ascending lq 0 m (N v'))
    (insLoop step first last) v0.
Proof.
  intros ->. unfold insLoop.
  apply (swp_loop_var body D (Z.to_nat (7 * m + 14)) sreg sreg
    (fun h v => exists j, h = first + j * step /\ 1 <= j <= m /\
       bubble lt (seg (N v0) 0 m) (seg (N v) 0 m) /\ permR a b v0 v /\ ascending lq 0 j (N v))
    (fun h => Z.max 0 (m - (h - first) / step))
    (fun _ v' => bubble lt (seg (N v0) 0 m) (seg (N v') 0 m) /\ permR a b v0 v' /\
                   ascending lq 0 m (N v'))).
  2:{ exists 1. split; [lia|]. split; [lia|]. split; [apply bubble_refl|]. split; [apply permR_refl|].
      intros i j; lia. }
  2:{ lia. }
  2:{ replace (first + step - first) with (1 * step) by lia. rewrite Z.div_mul by lia. unfold cIns2. nia. }
  intros h v (j & -> & Hj & Hbub & Hp & Hs).
  destruct (Z.leb_spec (first + j * step) (first + (m - 1) * step)) as [C|C].
  2:{ apply swp_ret. assert (j = m) by nia. subst j. auto. }
  assert (Hj' : j < m) by nia.
  apply swp_bind. eapply swp_apply.
  { apply (ins_inner v0 j D ltac:(lia) _ v (Z.to_nat (7 * (j + 2))) eq_refl Hbub Hp Hs). lia. }
  { lia. } { lia. } { auto. } { auto. }
  cbv beta. intros _ n1 v' (Hbub' & Hp' & Hs') _ _. apply swp_ret.
  assert (Hr : 0 <= first + (j + 1) * step < 2 * wq) by nia.
  replace (first + j * step + step) with (first + (j + 1) * step) by lia.
  rewrite iw_small by lia.
  split; [exists (j + 1); split; [reflexivity|]; split; [lia|]; auto|].
  replace (first + (j + 1) * step - first) with ((j + 1) * step) by lia.
  replace (first + j * step - first) with (j * step) by lia.
  rewrite !Z.div_mul by lia. lia.
Qed.

End Ins.

(** insertion(lsw, lo, hi). *)
Definition rng (lo hi : Z) : slice := Slice lo (hi - lo + 1).

Notation sortedP := (sortedP (lkind lq)).

Lemma swp_insertion2 lo hi v D :
  0 <= lo -> lo <= hi -> hi < cap -> 11 * hi + 29 < 20 * wq ->
  swp D (Z.to_nat (cIns2 (hi - lo + 1))) (reg (rng lo hi)) (reg (rng lo hi))
    (fun _ _ v' => bubble lt (seg v lo (hi + 1)) (seg v' lo (hi + 1)) /\
                   sortedP (rng lo hi) v v')
    (lswInsertion lt cap lo hi) v.
Proof.
  intros H0 H1 H2 H3. rewrite lswInsertion_loop.
  assert (R : forall i, stepReg lo 1 (hi - lo + 1) i -> reg (rng lo hi) i).
  { intros i (j & Hj & ->). unfold reg; simpl. lia. }
  assert (Es : forall w : Z -> T, seg (nthOf lo 1 w) 0 (hi - lo + 1) = seg w lo (hi + 1)).
  { intro w. replace lo with (lo + 0) at 3 by lia. replace (hi + 1) with (lo + (hi - lo + 1)) by lia.
    rewrite seg_shift. apply seg_ext. intros i Hi. unfold nthOf. f_equal. lia. }
  eapply swp_use; [apply (swp_insLoop lo 1 (hi - lo + 1) lo (hi + 1)) with (v0 := v) (D := D); lia| | |exact R|exact R|].
  { lia. } { lia. }
  cbv beta. intros _ m v' _ (Hb & Hp & Ha). rewrite !Es in Hb. split; [exact Hb|].
  split; simpl; replace (lo + (hi - lo + 1)) with (hi + 1) by lia; [exact Hp|].
  intros i j Hi Hij Hj. change (ltT (lkind lq)) with lq.
  specialize (Ha (i - lo) (j - lo) ltac:(lia) ltac:(lia) ltac:(lia)). unfold nthOf in Ha.
  replace (lo + (i - lo) * 1) with i in Ha by lia. replace (lo + (j - lo) * 1) with j in Ha by lia.
  exact Ha.
Qed.

(** ** Pivot selection *)

(** After pivot selection: [pv] is at least [c] cells away from both ends, and holds an
    element between those at the two ends. *)
Definition pivoted (lo hi c : Z) (v0 : Z -> T) (pv : Z) (v : Z -> T) : Prop :=
  permR lo (hi + 1) v0 v /\ lo + c <= pv <= hi - c /\
  lq (v pv) (v lo) = false /\ lq (v hi) (v pv) = false.

(** Moving the outer samples to the ends. *)
Lemma swp_ends D n (Q : Z -> nat -> (Z -> T) -> Prop) lo hi first last pv r v :
  0 <= lo -> hi < cap -> lo <= first -> first < pv -> pv < last -> last <= hi ->
  lq (v pv) (v first) = false -> lq (v last) (v pv) = false -> (11 < n)%nat ->
  (forall m w, (n <= m + 12)%nat -> permR lo (hi + 1) v w ->
     lq (w pv) (w lo) = false -> lq (w hi) (w pv) = false -> Q r m w) ->
  swp D n (reg (rng lo hi)) (reg (rng lo hi)) Q
    (lsw lt cap first lo first lo ;;; lsw lt cap hi last hi last ;;; Ret r)%cmd v.
Proof.
  intros H0 Hc H1 H2 H3 H4 L1 L2 Hn HQ.
  assert (R : forall i, lo <= i <= hi -> reg (rng lo hi) i) by (intros; unfold reg; simpl; lia).
  assert (S2 : forall m w, (n <= m + 6)%nat -> permR lo (hi + 1) v w ->
    lq (w pv) (w lo) = false -> lq (w last) (w pv) = false ->
    swp D m (reg (rng lo hi)) (reg (rng lo hi)) Q (lsw lt cap hi last hi last ;;; Ret r)%cmd w).
  { intros m w Hm Hp E1 E2. apply swp_bind, swp_order; [lia|lia|lia|apply R; lia..| |].
    - intros E Hne. apply swp_ret. apply HQ; [lia| | |].
      + eapply permR_trans; [exact Hp|apply permR_swap; lia].
      + rewrite !swapv_o by lia. exact E1.
      + rewrite swapv_l, swapv_o by lia. exact E2.
    - intro E. apply swp_ret. apply HQ; [lia|exact Hp|exact E1|].
      eapply ge_trans; [exact E2|apply lt_weak; exact E]. }
  apply swp_bind, swp_order; [lia|lia|lia|apply R; lia..| |].
  - intros E Hne. apply S2; [lia|apply permR_swap; lia| |].
    + rewrite swapv_r, swapv_o by lia. exact L1.
    + rewrite !swapv_o by lia. exact L2.
  - intro E. apply S2; [lia|apply permR_refl| |exact L2].
    eapply ge_trans; [apply lt_weak; exact E|exact L1].
Qed.

Definition cPivot2 : Z := 540.

Lemma swp_pivot2 meanI lo hi c v D :
  (forall x y, 0 <= x -> x < y -> y < 2 * wq -> Z.even (x + y) = true -> 2 * meanI x y = x + y) ->
  c = 2 \/ c = 3 /\ 21 <= wq -> 0 <= lo -> 4 * c + 2 <= hi - lo + 1 -> hi < cap -> 11 * hi + 29 < 20 * wq ->
  swp D (Z.to_nat cPivot2) (reg (rng lo hi)) (reg (rng lo hi))
    (fun pv _ v' => pivoted lo hi c v pv v')
    (lswPivot lt cap meanI lo hi (2 * c + 1)) v.
Proof.
  intros HM Hc H0 Hl Hcap Hb. unfold lswPivot.
  rewrite uw_small by lia.
  destruct (minMaxSample_ok (Wd := Wd) (hi + 1 - lo) (2 * c + 1) ltac:(lia) ltac:(lia) ltac:(lia)) as (f & st & E & Hf & Hst & Hlast).
  rewrite E. replace (2 * c + 1 - 1) with (2 * c) in * by lia.
  set (first := lo + f). set (m := 2 * c + 1). rewrite lswSamples_loop.
  assert (Hst' : st <= hi - lo) by nia.
  assert (Ewr : first + m * st < 2 * wq).
  { unfold first, m. destruct (minMaxSample_past (Wd := Wd) (hi + 1 - lo) (2 * c + 1) f st _ ltac:(lia) ltac:(lia) ltac:(lia) E) as [P5 P7].
    destruct Hc as [Hc|[Hc Hc2]]; subst c; [specialize (P5 eq_refl)|specialize (P7 eq_refl)]; lia. }
  assert (Rin : forall j, 0 <= j < m -> lo <= first + j * st <= hi) by (intros; unfold first, m in *; nia).
  assert (R : forall i, stepReg first st m i -> reg (rng lo hi) i).
  { intros i (j & Hj & ->). unfold reg; simpl. specialize (Rin j Hj). lia. }
  apply swp_bind. eapply swp_apply.
  { apply (swp_insLoop first st m lo (hi + 1)) with (v0 := v) (D := D); try (unfold m, first; lia). }
  { lia. } { unfold cIns2, cPivot2, m. destruct Hc as [Hc|[Hc _]]; subst c; lia. } { exact R. } { exact R. }
  cbv beta. intros _ n1 w (_ & Hp & Ha) _ Hn1.
  assert (Ecost : (12 <= n1)%nat).
  { unfold cIns2, cPivot2, m in *. destruct Hc as [Hc|[Hc _]]; subst c; lia. }
  assert (Em : meanI first (lo + (f + 2 * c * st)) = first + c * st).
  { assert (2 * meanI first (lo + (f + 2 * c * st)) = first + (lo + (f + 2 * c * st))).
    { apply HM; [unfold first; lia|unfold first; nia|unfold first in *; lia|].
      replace (first + (lo + (f + 2 * c * st))) with (2 * (first + c * st)) by (unfold first; lia).
      apply Z.even_spec. exists (first + c * st). reflexivity. }
    unfold first in *. lia. }
  rewrite Em.
  assert (Hcs : c <= c * st) by nia.
  assert (Hpv := Rin c ltac:(unfold m; lia)).
  eapply swp_ends; [lia|lia|unfold first; lia| | | | | |lia|].
  5:{ specialize (Ha c (2 * c) ltac:(lia) ltac:(lia) ltac:(unfold m; lia)). unfold nthOf in Ha.
      replace (lo + (f + 2 * c * st)) with (first + 2 * c * st) by (unfold first; lia). exact Ha. }
  4:{ specialize (Ha 0 c ltac:(lia) ltac:(lia) ltac:(unfold m; lia)). unfold nthOf in Ha.
      replace (first + 0 * st) with first in Ha by lia. exact Ha. }
  { nia. } { unfold first. nia. } { lia. }
  intros n2 u Hn2 Hp2 E1 E2. split; [eapply permR_trans; eassumption|].
  split; [|split; assumption].
  assert (lo + f + c * st <= hi - c) by nia. unfold first. lia.
Qed.

Lemma swp_pivotShort2 lo hi v D :
  0 <= lo -> 6 <= hi - lo + 1 -> hi < cap -> 11 * hi + 29 < 20 * wq ->
  swp D 30 (reg (rng lo hi)) (reg (rng lo hi))
    (fun pv _ v' => pivoted lo hi 1 v pv v')
    (lswPivotShort lt cap lo hi) v.
Proof.
  intros H0 Hl Hcap Hb. unfold lswPivotShort. rewrite uw_small by lia.
  destruct (minMaxSample_ok (Wd := Wd) (hi + 1 - lo) 3 ltac:(lia) ltac:(lia) ltac:(lia)) as (f & st & E & Hf & Hst & Hlast).
  rewrite E. set (first := lo + f). set (pv := first + st). set (last := pv + st).
  assert (R : forall i, lo <= i <= hi -> reg (rng lo hi) i) by (intros; unfold reg; simpl; lia).
  assert (B : lo <= first /\ first < pv /\ pv < last /\ last <= hi) by (unfold last, pv, first; lia).
  clearbody first. clearbody pv. clearbody last.
  assert (Fin : forall m w, (12 <= m)%nat -> permR lo (hi + 1) v w ->
    lq (w pv) (w first) = false -> lq (w last) (w pv) = false ->
    swp D m (reg (rng lo hi)) (reg (rng lo hi)) (fun pv _ v' => pivoted lo hi 1 v pv v')
      (lsw lt cap first lo first lo ;;; lsw lt cap hi last hi last ;;; Ret pv)%cmd w).
  { intros m w Hm Hp E1 E2. eapply swp_ends; try eassumption; try lia.
    intros m' u Hm' Hp' E1' E2'. split; [eapply permR_trans; eassumption|]. split; [lia|auto]. }
  assert (S2 : forall m w, (24 <= m)%nat -> permR lo (hi + 1) v w -> lq (w pv) (w first) = false ->
    swp D m (reg (rng lo hi)) (reg (rng lo hi)) (fun pv _ v' => pivoted lo hi 1 v pv v')
     (b <- lsw lt cap last pv last pv ;;
      (if b : bool then lsw lt cap pv first pv first ;;; Ret tt else Ret tt) ;;;
      lsw lt cap first lo first lo ;;; lsw lt cap hi last hi last ;;; Ret pv)%cmd w).
  { intros m w Hm Hp E1. apply swp_bind, swp_order; [lia|lia|lia|apply R; lia..| |].
    - intros E2 _. set (w1 := swapv w last pv).
      assert (Hp1 : permR lo (hi + 1) v w1) by (eapply permR_trans; [exact Hp|apply permR_swap; lia]).
      assert (E3 : lq (w1 last) (w1 pv) = false).
      { unfold w1. rewrite swapv_l, swapv_r. apply lt_asym. exact E2. }
      assert (E4 : lq (w1 last) (w1 first) = false).
      { unfold w1. rewrite swapv_l, swapv_o by lia. exact E1. }
      apply swp_bind, swp_bind, swp_order; [lia|lia|lia|apply R; lia..| |].
      + intros E5 _. apply swp_ret. apply Fin; [lia| | |].
        * eapply permR_trans; [exact Hp1|apply permR_swap; lia].
        * rewrite swapv_l, swapv_r. apply lt_asym. exact E5.
        * rewrite swapv_l, swapv_o by lia. exact E4.
      + intro E5. apply swp_ret. apply Fin; [lia|exact Hp1|apply lt_weak; exact E5|exact E3].
    - intro E2. apply swp_bind, swp_ret. apply Fin; [lia|exact Hp|exact E1|apply lt_weak; exact E2]. }
  apply swp_bind, swp_order; [lia|lia|lia|apply R; lia..| |].
  - intros E1 _. apply S2; [lia|apply permR_swap; lia|]. rewrite swapv_l, swapv_r. apply lt_asym. exact E1.
  - intro E1. apply S2; [lia|apply permR_refl|apply lt_weak; exact E1].
Qed.

End Seq.
