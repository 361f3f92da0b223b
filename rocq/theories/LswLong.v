(** * short, long and gLong of sortyLsw.go *)

From Coq Require Import List ZArith Lia Bool Permutation.
From Verif Require Import Lang SeqLogic Yields ConcLogic Base Scalar Typed SeqOps ScalarFacts TypedPart
  TypedPivot TypedShort ConcSort TypedLong Spec Lsw LswSeq LswPart.
Import ListNotations.
Open Scope Z_scope.

Local Arguments Z.mul : simpl never.
Local Arguments Z.add : simpl never.
Local Arguments Z.sub : simpl never.
Local Arguments Z.pow : simpl never.

(** sixb.MeanI is exact on numbers of the same parity. *)
Definition meanEven {Wd : word} (meanI : Z -> Z -> Z) : Prop :=
  forall x y, 0 <= x -> x < y -> y < 2 * wq -> Z.even (x + y) = true -> 2 * meanI x y = x + y.

Lemma cIns2_cSort a : 1 <= a -> cIns2 a <= cSort a.
Proof. intros. unfold cIns2, cSort. nia. Qed.

Lemma cIns2_pos a : 0 <= a -> 0 <= cIns2 a.
Proof. intros. unfold cIns2. nia. Qed.

Lemma lswSplit_ok lo hi l : lo + 1 <= l <= hi ->
  exists l' h' lo' hi', lswSplit lo hi l = (l', h', lo', hi', h' - l', hi' - lo') /\
    isSplit (rng lo hi) (l - lo) (rng l' h') (rng lo' hi') /\
    lo <= l' /\ l' <= h' /\ h' <= hi /\ lo <= lo' /\ lo' <= hi' /\ hi' <= hi.
Proof.
  intros H. unfold lswSplit. cbv zeta. destruct (Z.ltb_spec (l - 1 - lo) (hi - l)).
  - exists lo, (l - 1), l, hi. split; [reflexivity|]. split; [|lia].
    unfold isSplit, rng; simpl; lia.
  - exists l, hi, lo, (l - 1). split; [reflexivity|]. split; [|lia].
    unfold isSplit, rng; simpl; lia.
Qed.

(** Work is only handed over in ranges of more than MaxLenRecFC elements. *)
Definition lswGrain (tn : tuning) : grain := Grain (Z.to_nat (maxLenRecFC tn)) false.
Global Instance thawed_lsw (tn : tuning) : thawed (lswGrain tn).
Proof. reflexivity. Qed.

Section Long.
Context {Wd : word}.
Context {T : Type}.
Variables lt lq : T -> T -> bool.
Hypothesis Hlt : consistent lt lq.
Variable cap : Z.
Variable tn : tuning.
Variable meanI : Z -> Z -> Z.
Hypothesis HM : meanEven meanI.

Notation maxIns := (maxLenInsFC tn).
Notation maxRec := (maxLenRecFC tn).
Hypothesis HIns : 9 <= maxIns.
Hypothesis HRec : 2 * maxIns < maxRec.

Notation body := (lswBody lt cap tn meanI).
Notation swp := (swp body).
Notation kd := (lkind lq).
Notation sortedP := (sortedP kd).
Notation parted := (parted kd okAll).
Let LW : laws kd okAll := lkind_laws lq (proj1 (proj2 Hlt)).

Lemma okOn_all s (v : Z -> T) : okOn kd okAll s v.
Proof. intros i _. exact I. Qed.

Lemma swp_ins2 lo hi v D :
  0 <= lo -> lo <= hi -> hi < cap -> 11 * hi + 29 < 20 * wq ->
  swp D (Z.to_nat (cIns2 (hi - lo + 1))) (reg (rng lo hi)) (reg (rng lo hi))
    (fun _ _ v' => sortedP (rng lo hi) v v') (lswInsertion lt cap lo hi) v.
Proof.
  intros. eapply swp_conseq; [apply (swp_insertion2 lt lq Hlt); assumption|].
  cbv beta. intros _ m v' _ [_ Hs]. exact Hs.
Qed.

(** partOne after a pivot selection. *)
Lemma swp_partOne2 c lo hi v pv v1 D :
  1 <= c -> 0 <= lo -> 4 <= hi - lo + 1 -> hi < cap -> pivoted lq lo hi c v pv v1 ->
  swp D (Z.to_nat (cPartL (hi - lo + 1))) (reg (rng lo hi)) (reg (rng lo hi))
    (fun l _ v' => parted (rng lo hi) (l - lo) v v')
    (lswPartOne lt cap (lo + 1) pv (hi - 1)) v1.
Proof.
  intros Hc H0 Hl Hcap Hpv.
  assert (Hpr : lo + c <= pv <= hi - c) by apply Hpv.
  eapply swp_apply;
    [apply (swp_lswPartOne lt lq Hlt cap body (lo + 1) (hi - 1) pv); lia
    |apply Nat.le_refl|unfold cPartL in *; lia
    |unfold rdOne, reg; simpl; intros; lia|unfold wrOne, reg; simpl; intros; lia|].
  cbv beta. intros l n2 v2 Hone Hf2 _. eapply (parted_lsw lq); eassumption.
Qed.

Definition shortState : Type := (Z * Z + Z * Z * Z * Z * Z)%type.

Definition lshortBody : shortState -> cmd lproc T (shortState + unit) :=
  (fun st =>
    match st with
    | inl (lo, hi) =>
        pv <- lswPivotShort lt cap lo hi ;;
        l <- lswPartOne lt cap (lo + 1) pv (hi - 1) ;;
        let '(l, h, lo, hi, n, no) := lswSplit lo hi l in
        if maxIns <=? n then
          Call (LShort l h) (goto (inl (lo, hi)))
        else goto (inr (lo, hi, l, h, no))
    | inr (lo, hi, l, h, no) =>
        lswInsertion lt cap l h ;;;
        if maxIns <=? no then goto (inl (lo, hi))
        else if negb (lo =? l) then goto (inr (lo, hi, lo, hi, no))
        else done tt
    end)%cmd.

Lemma lshort_unfold lo hi : lswShort lt cap tn lo hi = Loop (inl (lo, hi)) lshortBody.
Proof. reflexivity. Qed.


Lemma swp_lswShort_gen : forall N lo hi v,
  hi - lo + 1 <= N -> maxIns < hi - lo + 1 -> 0 <= lo -> hi < cap -> 11 * hi + 29 < 20 * wq ->
  swp (Z.to_nat (Z.log2 (hi - lo + 1))) (Z.to_nat (cSort (hi - lo + 1))) (reg (rng lo hi)) (reg (rng lo hi))
    (fun _ _ v' => sortedP (rng lo hi) v v') (Loop (inl (lo, hi)) lshortBody) v.
Proof.
  intro N. induction (Z.lt_wf 0 N) as [N _ IH]. intros lo hi v HN Hs H0 Hcap Hb.
  set (s := rng lo hi). assert (Es : len s = hi - lo + 1) by reflexivity.
  rewrite <- Es in *.
  assert (C1 := cSort_pos (len s)).
  assert (Cm : 100 * 10 * len s <= cSort (len s)) by (unfold cSort; nia).
  apply swp_loop; [lia|]. unfold lshortBody at 1.
  apply swp_bind. eapply swp_apply;
    [apply (swp_pivotShort2 lt lq Hlt cap body lo hi v 0); lia|lia|lia|auto|auto|].
  cbv beta. intros pv n1 vp Hpiv Hfp Hn1.
  apply swp_bind. eapply swp_apply;
    [apply (swp_partOne2 1 lo hi v pv vp 0); [lia|lia|lia|lia|exact Hpiv]|lia|unfold cPartL; lia|auto|auto|].
  cbv beta. intros l n2 v1 Hpart Hf1' Hn2. fold s in Hpart.
  assert (Hf1 : forall i, ~ reg s i -> v1 i = v i) by (intros i Hi; rewrite Hf1', Hfp; auto).
  clear Hpiv Hfp Hf1' vp pv.
  assert (Hk : 1 <= l - lo <= len s - 1) by apply Hpart.
  destruct (lswSplit_ok lo hi l ltac:(lia)) as (l' & h' & lo' & hi' & E & Hsp & B1 & B2 & B3 & B4 & B5 & B6).
  rewrite E. clear E. set (k := l - lo) in *. fold s in Hsp.
  set (aq := rng l' h') in *. set (ar := rng lo' hi') in *.
  assert (Eq : len aq = h' - l' + 1) by reflexivity. assert (Ea : len ar = hi' - lo' + 1) by reflexivity.
  destruct (isSplit_reg s k aq ar Hk Hsp) as (Raq & Rar & Rdis & Haq & Har & Hsum & Hle & Hoff).
  assert (Lq := log2_half (len aq) (len s) Haq ltac:(lia)).
  assert (La : Z.log2 (len ar) <= Z.log2 (len s)) by (apply Z.log2_le_mono; lia).
  assert (Lq0 := Z.log2_nonneg (len aq)). assert (La0 := Z.log2_nonneg (len ar)).
  assert (Cj := cSort_join (len aq) (len ar) (len s) (100 * len s + 500) Haq Har Hsum ltac:(lia) ltac:(lia)).
  assert (Cq0 := cSort_pos (len aq)). assert (Ca0 := cSort_pos (len ar)).
  assert (Cq := cIns2_cSort (len aq) Haq). assert (Ca := cIns2_cSort (len ar) Har).
  assert (Cq1 := cIns2_pos (len aq) ltac:(lia)). assert (Ca1 := cIns2_pos (len ar) ltac:(lia)).
  assert (Hn2' : cSort (len aq) + cSort (len ar) + 100 <= Z.of_nat n2) by (unfold cPartL in *; lia).
  destruct (Z.leb_spec maxIns (h' - l')) as [Cc|Cc].
  - (* recurse on the shorter range *)
    replace (Z.to_nat (Z.log2 (len s))) with (S (Z.to_nat (Z.log2 (len s) - 1))) by lia.
    apply swp_call; [lia|]. cbn [lswBody]. rewrite lshort_unfold.
    eapply swp_apply; [apply (IH (len aq)) with (lo := l') (hi := h'); lia
                      |rewrite <- Eq; lia|rewrite <- Eq; lia|exact Raq|exact Raq|].
    cbv beta. intros _ n3 v2 Hsq Hf2 Hn3. rewrite <- Eq in Hn3. fold aq in Hsq, Hf2. split; [lia|]. apply swp_ret.
    assert (E12 : forall i, reg ar i -> v2 i = v1 i).
    { intros i Hi. apply Hf2. intro Hq. exact (Rdis i Hq Hi). }
    eapply swp_apply; [apply (IH (len ar)) with (lo := lo') (hi := hi'); lia
                      |rewrite <- Ea; lia|rewrite <- Ea; lia|exact Rar|exact Rar|].
    cbv beta. intros _ n4 v3 Hsa Hf3 Hn4. fold ar in Hsa, Hf3.
    apply (sortedP_join kd okAll LW s k aq ar v v1 v3 (okOn_all s v) Hpart Hsp).
    + eapply sortedP_ext; [exact Hsq|auto|]. intros i Hi. apply Hf3. intro Ha. exact (Rdis i Hi Ha).
    + eapply sortedP_ext; [exact Hsa| |auto]. intros i Hi. symmetry. apply E12; exact Hi.
  - apply swp_ret. apply swp_loop; [lia|]. cbn [lshortBody].
    apply swp_bind. eapply swp_apply;
      [apply (swp_ins2 l' h' v1 0); lia|lia|rewrite <- Eq; lia|exact Raq|exact Raq|].
    cbv beta. intros _ n3 v2 Hsq Hf2 Hn3. rewrite <- Eq in Hn3. fold aq in Hsq, Hf2.
    assert (E12 : forall i, reg ar i -> v2 i = v1 i).
    { intros i Hi. apply Hf2. intro Hq. exact (Rdis i Hq Hi). }
    assert (Hfin : forall v3, sortedP ar v2 v3 -> (forall i, ~ reg ar i -> v3 i = v2 i) -> sortedP s v v3).
    { intros v3 Hsa Hf3. apply (sortedP_join kd okAll LW s k aq ar v v1 v3 (okOn_all s v) Hpart Hsp).
      - eapply sortedP_ext; [exact Hsq|auto|]. intros i Hi. apply Hf3. intro Ha. exact (Rdis i Hi Ha).
      - eapply sortedP_ext; [exact Hsa| |auto]. intros i Hi. symmetry. apply E12; exact Hi. }
    destruct (Z.leb_spec maxIns (hi' - lo')) as [Cr|Cr].
    + apply swp_ret. eapply swp_apply; [apply (IH (len ar)) with (lo := lo') (hi := hi'); lia
                      |rewrite <- Ea; lia|rewrite <- Ea; lia|exact Rar|exact Rar|].
      cbv beta. intros _ n4 v3 Hsa Hf3 Hn4. apply Hfin; assumption.
    + change (off ar) with lo' in Hoff. change (off aq) with l' in Hoff.
      destruct (Z.eqb_spec lo' l') as [Eo|_]; [exfalso; exact (Hoff Eo)|]. cbn [negb].
      apply swp_ret. apply swp_loop; [lia|]. cbn [lshortBody].
      apply swp_bind. eapply swp_apply;
        [apply (swp_ins2 lo' hi' v2 0); lia|lia|rewrite <- Ea; lia|exact Rar|exact Rar|].
      cbv beta. intros _ n4 v3 Hsa Hf3 Hn4.
      destruct (Z.leb_spec maxIns (hi' - lo')); [lia|].
      rewrite Z.eqb_refl. cbn [negb]. apply swp_ret. apply Hfin; assumption.
Qed.

Lemma swp_lswShort lo hi v :
  maxIns < hi - lo + 1 -> 0 <= lo -> hi < cap -> 11 * hi + 29 < 20 * wq ->
  swp (Z.to_nat (Z.log2 (hi - lo + 1))) (Z.to_nat (cSort (hi - lo + 1))) (reg (rng lo hi)) (reg (rng lo hi))
    (fun _ _ v' => sortedP (rng lo hi) v v') (lswShort lt cap tn lo hi) v.
Proof. intros. rewrite lshort_unfold. eapply swp_lswShort_gen; [apply Z.le_refl|assumption..]. Qed.

(** The loop body of long. *)
Definition llongBody (sv : bool) : Z * Z -> cmd lproc T (Z * Z + unit) :=
  (fun '(lo, hi) =>
    pv <- lswPivot lt cap meanI lo hi (nsLong - 1) ;;
    l <- lswPartOne lt cap (lo + 1) pv (hi - 1) ;;
    let '(l, h, lo, hi, n, no) := lswSplit lo hi l in
    if n <? maxRec then
      (if maxIns <=? n then Call (LShort l h) (Ret tt) else lswInsertion lt cap l h) ;;;
      if maxRec <=? no then goto (lo, hi)
      else Call (LShort lo hi) (done tt)
    else
      full <- (if sv then lswGorFull else Ret true) ;;
      if full : bool then
        Call (LLong l h sv) (goto (lo, hi))
      else
        AddGor 1 (fun _ => Fork (LGLong lo hi) (goto (l, h))))%cmd.

Lemma llong_unfold lo hi sv : lswLong lt cap tn meanI lo hi sv = Loop (lo, hi) (llongBody sv).
Proof. reflexivity. Qed.

(** The short range: short or insertion. *)
Lemma swp_small2 lo hi v :
  0 <= lo -> lo <= hi -> hi < cap -> 11 * hi + 29 < 20 * wq ->
  swp (Z.to_nat (Z.log2 (hi - lo + 1) + 1)) (Z.to_nat (cSort (hi - lo + 1) + 2)) (reg (rng lo hi)) (reg (rng lo hi))
    (fun _ _ v' => sortedP (rng lo hi) v v')
    (if maxIns <=? hi - lo then Call (LShort lo hi) (Ret tt) else lswInsertion lt cap lo hi) v.
Proof.
  intros H1 H2 H3 H4. set (m := hi - lo + 1) in *.
  assert (H0 := Z.log2_nonneg m). assert (C0 := cSort_pos m).
  destruct (Z.leb_spec maxIns (hi - lo)) as [C|C].
  - replace (Z.to_nat (Z.log2 m + 1)) with (S (Z.to_nat (Z.log2 m))) by lia.
    apply swp_call; [lia|]. cbn [lswBody].
    eapply swp_apply; [apply (swp_lswShort lo hi v); lia|fold m; lia|fold m; lia|auto|auto|].
    cbv beta. fold m. intros _ n v' Hs _ Hm. split; [lia|]. apply swp_ret. exact Hs.
  - assert (Ci := cIns2_cSort m ltac:(lia)). assert (Ci' := cIns2_pos m ltac:(lia)).
    eapply swp_apply; [apply (swp_ins2 lo hi v 0); assumption|lia|fold m; lia|auto|auto|].
    cbv beta. auto.
Qed.

Lemma swp_pivotLong lo hi v D :
  0 <= lo -> 18 <= hi - lo + 1 -> hi < cap -> 11 * hi + 29 < 20 * wq ->
  swp D (Z.to_nat cPivot2) (reg (rng lo hi)) (reg (rng lo hi))
    (fun pv _ v' => pivoted lq lo hi 2 v pv v')
    (lswPivot lt cap meanI lo hi (nsLong - 1)) v.
Proof. intros. apply (swp_pivot2 lt lq Hlt cap body meanI lo hi 2); auto; lia. Qed.

Lemma swp_lswLong_gen : forall N lo hi v,
  hi - lo + 1 <= N -> maxRec < hi - lo + 1 -> 0 <= lo -> hi < cap -> 11 * hi + 29 < 20 * wq ->
  swp (Z.to_nat (Z.log2 (hi - lo + 1) + 1)) (Z.to_nat (cSort (hi - lo + 1))) (reg (rng lo hi)) (reg (rng lo hi))
    (fun _ _ v' => sortedP (rng lo hi) v v') (Loop (lo, hi) (llongBody false)) v.
Proof.
  intro N. induction (Z.lt_wf 0 N) as [N _ IH]. intros lo hi v HN Hs H0 Hcap Hb.
  set (s := rng lo hi). assert (Es : len s = hi - lo + 1) by reflexivity.
  rewrite <- Es in *.
  assert (C1 := cSort_pos (len s)).
  assert (Cm : 100 * 12 * len s <= cSort (len s)) by (unfold cSort; nia).
  apply swp_loop; [lia|]. unfold llongBody at 1.
  apply swp_bind. eapply swp_apply;
    [apply (swp_pivotLong lo hi v 0); lia|lia|unfold cPivot2; lia|auto|auto|].
  cbv beta. intros pv n1 vp Hpiv Hfp Hn1.
  apply swp_bind. eapply swp_apply;
    [apply (swp_partOne2 2 lo hi v pv vp 0); [lia|lia|lia|lia|exact Hpiv]|lia|unfold cPivot2, cPartL in *; lia|auto|auto|].
  cbv beta. intros l n2 v1 Hpart Hf1' Hn2. fold s in Hpart.
  assert (Hf1 : forall i, ~ reg s i -> v1 i = v i) by (intros i Hi; rewrite Hf1', Hfp; auto).
  clear Hpiv Hfp Hf1' vp pv.
  assert (Hk : 1 <= l - lo <= len s - 1) by apply Hpart.
  destruct (lswSplit_ok lo hi l ltac:(lia)) as (l' & h' & lo' & hi' & E & Hsp & B1 & B2 & B3 & B4 & B5 & B6).
  rewrite E. clear E. set (k := l - lo) in *. fold s in Hsp.
  set (aq := rng l' h') in *. set (ar := rng lo' hi') in *.
  assert (Eq : len aq = h' - l' + 1) by reflexivity. assert (Ea : len ar = hi' - lo' + 1) by reflexivity.
  destruct (isSplit_reg s k aq ar Hk Hsp) as (Raq & Rar & Rdis & Haq & Har & Hsum & Hle & Hoff).
  assert (Lq := log2_half (len aq) (len s) Haq ltac:(lia)).
  assert (La : Z.log2 (len ar) <= Z.log2 (len s)) by (apply Z.log2_le_mono; lia).
  assert (Lq0 := Z.log2_nonneg (len aq)). assert (La0 := Z.log2_nonneg (len ar)).
  assert (Cj := cSort_join (len aq) (len ar) (len s) (100 * len s + 500) Haq Har Hsum ltac:(lia) ltac:(lia)).
  assert (Cq0 := cSort_pos (len aq)). assert (Ca0 := cSort_pos (len ar)).
  assert (Hn2' : cSort (len aq) + cSort (len ar) + 15 <= Z.of_nat n2) by (unfold cPivot2, cPartL in *; lia).
  assert (Hgo : forall n v2, sortedP aq v1 v2 -> (forall i, ~ reg aq i -> v2 i = v1 i) ->
    cSort (len ar) + 1 <= Z.of_nat n -> maxRec < len ar ->
    swp (Z.to_nat (Z.log2 (len s) + 1)) n (reg s) (reg s)
      (fun _ _ v' => sortedP s v v') (Loop (lo', hi') (llongBody false)) v2).
  { intros n v2 Hsq Hf2 Hn Hbig.
    assert (E12 : forall i, reg ar i -> v2 i = v1 i).
    { intros i Hi. apply Hf2. intro Hq. exact (Rdis i Hq Hi). }
    eapply swp_apply; [apply (IH (len ar)) with (lo := lo') (hi := hi'); lia
                      |rewrite <- Ea; lia|rewrite <- Ea; lia|exact Rar|exact Rar|].
    cbv beta. fold ar. intros _ n4 v3 Hsa Hf3 Hn4.
    apply (sortedP_join kd okAll LW s k aq ar v v1 v3 (okOn_all s v) Hpart Hsp).
    - eapply sortedP_ext; [exact Hsq|auto|]. intros i Hi. apply Hf3. intro Ha. exact (Rdis i Hi Ha).
    - eapply sortedP_ext; [exact Hsa| |auto]. intros i Hi. symmetry. apply E12; exact Hi. }
  destruct (Z.ltb_spec (h' - l') maxRec) as [Cc|Cc].
  - apply swp_bind. eapply swp_apply;
      [apply (swp_small2 l' h' v1); lia
      |rewrite <- Eq; lia|rewrite <- Eq; lia|exact Raq|exact Raq|].
    cbv beta. rewrite <- Eq. fold aq. intros _ n3 v2 Hsq Hf2 Hn3.
    destruct (Z.leb_spec maxRec (hi' - lo')) as [Cr|Cr].
    + apply swp_ret. apply Hgo; [exact Hsq|exact Hf2|lia|lia].
    + replace (Z.to_nat (Z.log2 (len s) + 1)) with (S (Z.to_nat (Z.log2 (len s)))) by lia.
      assert (E12 : forall i, reg ar i -> v2 i = v1 i).
      { intros i Hi. apply Hf2. intro Hq. exact (Rdis i Hq Hi). }
      apply swp_call; [lia|]. cbn [lswBody].
      eapply swp_apply; [apply (swp_lswShort lo' hi' v2); lia
                        |rewrite <- Ea; lia|rewrite <- Ea; lia|exact Rar|exact Rar|].
      cbv beta. rewrite <- Ea. fold ar. intros _ n4 v3 Hsa Hf3 Hn4. split; [lia|]. apply swp_ret.
      apply (sortedP_join kd okAll LW s k aq ar v v1 v3 (okOn_all s v) Hpart Hsp).
      * eapply sortedP_ext; [exact Hsq|auto|]. intros i Hi. apply Hf3. intro Ha. exact (Rdis i Hi Ha).
      * eapply sortedP_ext; [exact Hsa| |auto]. intros i Hi. symmetry. apply E12; exact Hi.
  - apply swp_bind, swp_ret.
    replace (Z.to_nat (Z.log2 (len s) + 1)) with (S (Z.to_nat (Z.log2 (len s)))) by lia.
    apply swp_call; [lia|]. cbn [lswBody]. rewrite llong_unfold.
    eapply swp_apply; [apply (IH (len aq)) with (lo := l') (hi := h'); lia
                      |rewrite <- Eq; lia|rewrite <- Eq; lia|exact Raq|exact Raq|].
    cbv beta. rewrite <- Eq. fold aq. intros _ n3 v2 Hsq Hf2 Hn3. split; [lia|]. apply swp_ret.
    replace (S (Z.to_nat (Z.log2 (len s)))) with (Z.to_nat (Z.log2 (len s) + 1)) by lia.
    apply Hgo; [exact Hsq|exact Hf2|lia|lia].
Qed.

Lemma swp_lswLong lo hi v :
  maxRec < hi - lo + 1 -> 0 <= lo -> hi < cap -> 11 * hi + 29 < 20 * wq ->
  swp (Z.to_nat (Z.log2 (hi - lo + 1) + 1)) (Z.to_nat (cSort (hi - lo + 1))) (reg (rng lo hi)) (reg (rng lo hi))
    (fun _ _ v' => sortedP (rng lo hi) v v') (lswLong lt cap tn meanI lo hi false) v.
Proof. intros. rewrite llong_unfold. eapply swp_lswLong_gen; [apply Z.le_refl|assumption..]. Qed.

(** ** The result, exactly

    As for the typed functions: the result is that of short, insertion and of long without
    syncVar. *)

Definition lsmallCmd (lo hi : Z) : cmd lproc T unit :=
  if maxIns <=? hi - lo then Call (LShort lo hi) (Ret tt) else lswInsertion lt cap lo hi.

Definition lsortedS (lo hi : Z) (v u : Z -> T) : Prop :=
  sortedP (rng lo hi) v u /\ outs body (lsmallCmd lo hi) (reg (rng lo hi)) v tt u.
Definition lsortedL (lo hi : Z) (v u : Z -> T) : Prop :=
  sortedP (rng lo hi) v u /\ outs body (lswLong lt cap tn meanI lo hi false) (reg (rng lo hi)) v tt u.

Lemma lsortedS_local lo hi v u u' :
  (forall i, reg (rng lo hi) i -> u' i = u i) -> lsortedS lo hi v u -> lsortedS lo hi v u'.
Proof. intros E [H1 H2]. split; [eapply sortedP_local; eassumption|eapply outs_local; eassumption]. Qed.

Lemma lsortedL_local lo hi v u u' :
  (forall i, reg (rng lo hi) i -> u' i = u i) -> lsortedL lo hi v u -> lsortedL lo hi v u'.
Proof. intros E [H1 H2]. split; [eapply sortedP_local; eassumption|eapply outs_local; eassumption]. Qed.

Lemma lsortedL_init lo hi v w u :
  (forall i, reg (rng lo hi) i -> w i = v i) -> lsortedL lo hi v u -> lsortedL lo hi w u.
Proof. intros E [H1 H2]. split; [eapply sortedP_init; eassumption|eapply outs_init; eassumption]. Qed.

Section Join.
Variables (lo hi pv l : Z) (v vp v1 : Z -> T) (l' h' lo' hi' : Z).
Notation s := (rng lo hi).
Notation aq := (rng l' h').
Notation ar := (rng lo' hi').
Hypothesis (Hpart : parted s (l - lo) v v1)
  (E : lswSplit lo hi l = (l', h', lo', hi', h' - l', hi' - lo')) (Hsp : isSplit s (l - lo) aq ar)
  (Ypv : yields body (reg s) (lswPivot lt cap meanI lo hi (nsLong - 1)) v pv vp)
  (Yk : yields body (reg s) (lswPartOne lt cap (lo + 1) pv (hi - 1)) vp l v1).

Let Hk : 1 <= l - lo <= len s - 1 := proj1 Hpart.

(** The longer range after the shorter one. *)
Lemma ljoin_exact (cq ca : cmd lproc T unit) u :
  outs body cq (reg aq) v1 tt u -> outs body ca (reg ar) v1 tt u ->
  (forall v2 v3, yields body (reg s) cq v1 tt v2 -> yields body (reg s) ca v2 tt v3 ->
     yields body (reg s) (lswLong lt cap tn meanI lo hi false) v tt v3) ->
  outs body (lswLong lt cap tn meanI lo hi false) (reg s) v tt u.
Proof.
  intros (w1 & Y1 & U1) O2 HY.
  destruct (isSplit_reg s (l - lo) aq ar Hk Hsp) as (Raq & Rar & Rdis & Haq & Har & Hsum & Hle & Hoff).
  assert (O3 : outs body ca (reg ar) w1 tt u).
  { eapply outs_init; [|exact O2]. intros i Hi. apply (yields_frame _ _ _ _ _ _ Y1). intro Hi'. exact (Rdis i Hi' Hi). }
  destruct O3 as (w2 & Y2 & U2). exists w2.
  split; [apply (HY w1 w2); eapply yields_mono; eauto|]. intros i Hi.
  destruct (isSplit_cover s (l - lo) aq ar i Hsp Hi) as [Hi'|Hi']; [|auto].
  rewrite U1 by exact Hi'. symmetry. apply (yields_frame _ _ _ _ _ _ Y2). intro Hi2. exact (Rdis i Hi' Hi2).
Qed.

Lemma ljoin_big u : maxRec < len aq -> lsortedL l' h' v1 u -> lsortedL lo' hi' v1 u -> lsortedL lo hi v u.
Proof.
  intros Hc [P1 O1] [P2 O2]. assert (Ea : len aq = h' - l' + 1) by reflexivity.
  split; [eapply (sortedP_join kd okAll LW); [apply okOn_all|eassumption..]|].
  eapply ljoin_exact; [exact O1|exact O2|].
  intros v2 v3 Y2 Y3. rewrite llong_unfold. eapply yields_loop.
  - unfold llongBody. eapply yields_bind; [exact Ypv|]. eapply yields_bind; [exact Yk|]. rewrite E.
    destruct (Z.ltb_spec (h' - l') maxRec); [lia|].
    eapply yields_bind; [apply yields_ret|]. cbv beta iota. eapply yields_call; [exact Y2|apply yields_ret].
  - cbv beta iota. exact Y3.
Qed.

Lemma ljoin_small u : len aq <= maxRec -> maxRec < len ar -> lsortedS l' h' v1 u -> lsortedL lo' hi' v1 u -> lsortedL lo hi v u.
Proof.
  intros Hc Hc' [P1 O1] [P2 O2]. assert (Eq : len aq = h' - l' + 1) by reflexivity. assert (Ea : len ar = hi' - lo' + 1) by reflexivity.
  split; [eapply (sortedP_join kd okAll LW); [apply okOn_all|eassumption..]|].
  eapply ljoin_exact; [exact O1|exact O2|].
  intros v2 v3 Y2 Y3. rewrite llong_unfold. eapply yields_loop.
  - unfold llongBody. eapply yields_bind; [exact Ypv|]. eapply yields_bind; [exact Yk|]. rewrite E.
    destruct (Z.ltb_spec (h' - l') maxRec); [|lia].
    eapply yields_bind; [exact Y2|]. cbv beta. destruct (Z.leb_spec maxRec (hi' - lo')); [|lia]. apply yields_ret.
  - cbv beta iota. exact Y3.
Qed.

Lemma ljoin_last u : len aq <= maxRec -> len ar <= maxRec -> maxIns < len ar -> lsortedS l' h' v1 u -> lsortedS lo' hi' v1 u -> lsortedL lo hi v u.
Proof.
  intros Hc Hc' Hi [P1 O1] [P2 O2]. assert (Eq : len aq = h' - l' + 1) by reflexivity. assert (Ea : len ar = hi' - lo' + 1) by reflexivity.
  split; [eapply (sortedP_join kd okAll LW); [apply okOn_all|eassumption..]|].
  eapply ljoin_exact; [exact O1|exact O2|].
  intros v2 v3 Y2 Y3. rewrite llong_unfold. eapply yields_loop with (r := inr tt).
  - unfold llongBody. eapply yields_bind; [exact Ypv|]. eapply yields_bind; [exact Yk|]. rewrite E.
    destruct (Z.ltb_spec (h' - l') maxRec); [|lia].
    eapply yields_bind; [exact Y2|]. cbv beta. destruct (Z.leb_spec maxRec (hi' - lo')); [lia|].
    unfold lsmallCmd in Y3. destruct (Z.leb_spec maxIns (hi' - lo')); [|lia].
    destruct (yields_call_inv body _ _ _ _ _ _ Y3) as (w & Y & Y'). apply yields_ret_inv in Y'. destruct Y' as [_ ->].
    eapply yields_call; [exact Y|apply yields_ret].
  - cbv beta iota. auto.
Qed.

End Join.

(** ** With syncVar *)

Variable Dm : nat.
Notation G := (lswGrain tn).
Notation W := (wpT (Gr := G) body Dm).
Notation wp := (wp (Gr := G) body W).

Lemma lmany_of s (d : cells) : maxRec < len s -> (forall i, reg s i -> d i) -> many (Gr := G) d.
Proof. intros H Hd. apply (atLeast_reg _ s); [exact Hd|]. unfold gr, lswGrain. lia. Qed.

Lemma ltwice_of s s' (d : cells) : maxRec < len s -> maxRec < len s' ->
  (forall i, reg s i -> d i) -> (forall i, reg s' i -> d i) -> (forall i, reg s i -> reg s' i -> False) ->
  twice (Gr := G) d.
Proof.
  intros H H' Hd Hd' Hn. apply (atLeast_app _ _ d (reg s) (reg s')); [exact Hd|exact Hd'|exact Hn|apply (lmany_of s)|apply (lmany_of s')]; auto.
Qed.

Lemma ltwice_one s (d : cells) : 2 * (maxRec + 1) <= len s -> (forall i, reg s i -> d i) -> twice (Gr := G) d.
Proof. intros H Hd. apply (atLeast_reg _ s); [exact Hd|]. unfold gr, lswGrain. lia. Qed.

Lemma wp_lswLong_gen : forall N lo hi g a,
  hi - lo + 1 <= N -> maxRec < hi - lo + 1 -> 0 <= lo -> hi < cap -> 11 * hi + 29 < 20 * wq ->
  md g = MAct a -> idle a ->
  (forall i, reg (rng lo hi) i -> dom g i) -> (forall i, reg (rng lo hi) i -> rd g i) ->
  (Z.to_nat (Z.log2 (hi - lo + 1) + 2) <= Dm)%nat ->
  wp (Z.to_nat (Z.log2 (hi - lo + 1) + 1))
    (fun _ _ g' => delegated (reg (rng lo hi)) (lsortedL lo hi (val g)) g a g')
    (Z.to_nat (cSort (hi - lo + 1))) (Loop (lo, hi) (llongBody true)) g.
Proof.
  intro N. induction (Z.lt_wf 0 N) as [N _ IH]. intros lo hi g a HN Hs H0 Hcap Hb Hmd Hidle Hdom Hrd HDm.
  set (s := rng lo hi) in *. assert (Es : len s = hi - lo + 1) by reflexivity.
  rewrite <- Es in *.
  assert (Hlive : live g) by (unfold live; rewrite Hmd; exact I).
  assert (C1 := cSort_pos (len s)).
  assert (Cm : 100 * 12 * len s <= cSort (len s)) by (unfold cSort; nia).
  apply wp_loop; [lia|]. unfold llongBody at 1.
  apply wp_bind. eapply wp_sapply;
    [typeclasses eauto|exact Hlive|apply swp_exactly, (swp_pivotLong lo hi (val g) 0); lia
    |lia|unfold cPivot2; lia|exact Hrd|exact Hdom|].
  cbv beta. intros pv n1 vp [Hpiv Ypv] Hfp Hn1. fold s in Hfp.
  apply wp_bind. eapply wp_sapply;
    [typeclasses eauto|exact Hlive|apply swp_exactly, (swp_partOne2 2 lo hi (val g) pv vp 0); [lia|lia|lia|lia|exact Hpiv]|lia
    |unfold cPivot2, cPartL in *; lia|exact Hrd|exact Hdom|].
  cbv beta. cbn [setval dom rd val md seen]. intros l n2 v1 [Hpart Yk] Hf1' Hn2. fold s in Hpart, Hf1'.
  assert (Hf1 : forall i, ~ reg s i -> v1 i = val g i) by (intros i Hi; rewrite Hf1', Hfp; auto).
  clear Hpiv Hfp Hf1'.
  assert (Hk : 1 <= l - lo <= len s - 1) by apply Hpart.
  destruct (lswSplit_ok lo hi l ltac:(lia)) as (l' & h' & lo' & hi' & E & Hsp & B1 & B2 & B3 & B4 & B5 & B6).
  assert (E' := E). rewrite E. clear E. set (k := l - lo) in *. fold s in Hsp.
  set (aq := rng l' h') in *. set (ar := rng lo' hi') in *.
  assert (Eq : len aq = h' - l' + 1) by reflexivity. assert (Ea : len ar = hi' - lo' + 1) by reflexivity.
  destruct (isSplit_reg s k aq ar Hk Hsp) as (Raq & Rar & Rdis & Haq & Har & Hsum & Hle & Hoff).
  assert (Lq := log2_half (len aq) (len s) Haq ltac:(lia)).
  assert (La : Z.log2 (len ar) <= Z.log2 (len s)) by (apply Z.log2_le_mono; lia).
  assert (Lq0 := Z.log2_nonneg (len aq)). assert (La0 := Z.log2_nonneg (len ar)).
  assert (Cj := cSort_join (len aq) (len ar) (len s) (100 * len s + 500) Haq Har Hsum ltac:(lia) ltac:(lia)).
  assert (Cq0 := cSort_pos (len aq)). assert (Ca0 := cSort_pos (len ar)).
  assert (Hn3' : cSort (len aq) + cSort (len ar) + 15 <= Z.of_nat n2) by (unfold cPivot2, cPartL in *; lia).
  clear Hn1 Hn2 n1. rename n2 into n.
  sv.
  assert (Hoff1 : reg aq (off aq)) by (unfold reg; lia).
  assert (Hoff2 : reg ar (off ar)) by (unfold reg; lia).
  assert (Rdis' : forall i, reg ar i -> ~ reg aq i) by (intros i H1 H2; exact (Rdis i H2 H1)).
  (* continuing with the longer range after the shorter one *)
  assert (Hgo : forall n g1 a1 g2 Sq, sameact a a1 -> (forall i, dom g1 i <-> dom g i) -> (forall i, rd g1 i <-> rd g i) ->
    val g1 = v1 -> delegated (reg aq) Sq g1 a1 g2 ->
    (forall u, Sq u -> lsortedL lo' hi' v1 u -> lsortedL lo hi (val g) u) ->
    cSort (len ar) + 1 <= Z.of_nat n -> maxRec < len ar ->
    wp (Z.to_nat (Z.log2 (len s) + 1))
      (fun _ _ g' => delegated (reg s) (lsortedL lo hi (val g)) g a g') n (Loop (lo', hi') (llongBody true)) g2).
  { intros m g1 a1 g2 Sq Hsa Ed Er Ev Hdel HJ Hm Hbig.
    assert (Hdel0 := Hdel).
    destruct Hdel as (O1 & a2 & Em & Eam & Hi & HO & HD & HR & HV & HP).
    assert (E12 : forall i, reg ar i -> val g2 i = v1 i).
    { intros i Hi2. rewrite HV, Ev; [reflexivity|]. auto. }
    eapply wp_apply; [apply (IH (len ar)) with (lo := lo') (hi := hi') (a := a2); [lia|lia|lia|lia|lia|lia|exact Em|exact Hi| | |]
                      |rewrite <- Ea; lia|rewrite <- Ea; lia|].
    { fold ar. intros i Hr. apply HD. rewrite Ed. split; [auto|]. intro Ho. apply HO in Ho. exact (Rdis i Ho Hr). }
    { fold ar. intros i Hr. apply HR. rewrite Er. split; [auto|]. intro Ho. apply HO in Ho. exact (Rdis i Ho Hr). }
    { rewrite <- Ea. lia. }
    cbv beta. fold ar. intros _ n4 g3 Hdel3 Hn4.
    eapply (delegated_seq (reg s) (reg aq) (reg ar)) with (S1 := Sq) (S2 := lsortedL lo' hi' (val g2));
      [exact Hsa|exact Ed|exact Er|intros i Hi2; rewrite Ev; apply Hf1; exact Hi2
      |exact Raq|exact Rar|exact Rdis|apply lsortedL_local| |exact Hdel0|].
    - intros u Hu1 Hu2. apply HJ; [exact Hu1|]. eapply lsortedL_init; [|exact Hu2].
      intros i Hr. symmetry. apply E12; exact Hr.
    - intros a3 Ha3. rewrite Em in Ha3. injection Ha3 as <-. exact Hdel3. }
  destruct (Z.ltb_spec (h' - l') maxRec) as [Cc|Cc].
  - apply wp_bind. eapply wp_sapply;
      [typeclasses eauto|exact Hlive|apply swp_exactly, (swp_small2 l' h' v1); lia
      |rewrite <- Eq; lia|rewrite <- Eq; lia|fold aq; intros; apply Hrd; auto|fold aq; intros; apply Hdom; auto|].
    cbv beta. cbn [setval dom rd val md seen]. rewrite <- Eq. fold aq. intros [] n3 v2 [Hsq Yq] Hf2 Hn3.
    sv.
    assert (HSq : lsortedS l' h' v1 v2) by (split; [exact Hsq|exists v2; auto]).
    assert (Hdel : delegated (reg aq) (lsortedS l' h' v1) (setval g v1) a (setval (setval g v1) v2)).
    { apply delegated_local; [exact Hmd|exact Hidle|exact Hf2|].
      intros u Hu. eapply lsortedS_local; [exact Hu|exact HSq]. }
    change (setval (setval g v1) v2) with (setval g v2) in Hdel.
    destruct (Z.leb_spec maxRec (hi' - lo')) as [Cr|Cr].
    + apply wp_ret. eapply (Hgo n3 (setval g v1) a); [split; reflexivity|reflexivity|reflexivity|reflexivity
        |exact Hdel| |lia|lia].
      intros u. eapply ljoin_small; try eassumption; fold aq ar; lia.
    + replace (Z.to_nat (Z.log2 (len s) + 1)) with (S (Z.to_nat (Z.log2 (len s)))) by lia.
      assert (E12 : forall i, reg ar i -> v2 i = v1 i) by (intros i Hi; apply Hf2; auto).
      apply wp_call; [lia|exact Hlive|]. cbn [lswBody].
      eapply wp_sapply; [typeclasses eauto|exact Hlive|apply swp_exactly, (swp_lswShort lo' hi' v2); lia
                        |rewrite <- Ea; lia|rewrite <- Ea; lia|fold ar; intros; apply Hrd; auto|fold ar; intros; apply Hdom; auto|].
      cbv beta. cbn [setval dom rd val md seen]. rewrite <- Ea. fold ar. intros [] n4 v3 [Hsa Ya] Hf3 Hn4. split; [lia|]. apply wp_ret.
      sv.
      apply delegated_local; [exact Hmd|exact Hidle| |].
      * intros i Hi. rewrite Hf3, Hf2, Hf1; auto.
      * assert (Yc : yields body (reg ar) (lsmallCmd lo' hi') v2 tt v3).
        { unfold lsmallCmd. destruct (Z.leb_spec maxIns (hi' - lo')); [|lia]. eapply yields_call; [exact Ya|apply yields_ret]. }
        intros u Hu. eapply ljoin_last; try eassumption; fold aq ar; try lia.
        -- eapply lsortedS_local; [|exact HSq]. intros i Hi. rewrite Hu by (apply Raq; exact Hi). apply Hf3. intro Hi'. exact (Rdis i Hi Hi').
        -- eapply lsortedS_local; [intros i Hi; apply Hu; apply Rar; exact Hi|]. split.
           ++ eapply sortedP_init; [|exact Hsa]. intros i Hi. symmetry. auto.
           ++ eapply outs_init; [intros i Hi; symmetry; apply E12; exact Hi|].
              exists v3. auto.
  - apply wp_bind. unfold lswGorFull. apply wp_loadmax; [lia|exact Hlive|]. intros mg Hmg.
    eapply wp_loadgor; [lia|exact Hmd|apply Hidle|apply Hidle|]. intros ng.
    cbn [setval setseen setmd dom rd val md seen]. apply wp_ret.
    set (a1 := settok a (ng <? mg)).
    assert (Hsa1 : sameact a a1) by (split; reflexivity).
    assert (Hidle1 : idle a1) by exact Hidle.
    destruct (Z.leb_spec mg ng) as [Cf|Cf].
    + replace (Z.to_nat (Z.log2 (len s) + 1)) with (S (Z.to_nat (Z.log2 (len s)))) by lia.
      apply wp_call; [lia|exact I|]. cbn [lswBody]. rewrite llong_unfold.
      eapply wp_apply; [apply (IH (len aq)) with (lo := l') (hi := h') (a := a1); [lia|lia|lia|lia|lia|lia|reflexivity|exact Hidle1| | |]
                        |rewrite <- Eq; lia|rewrite <- Eq; lia|].
      { fold aq. intros i Hr. apply Hdom. auto. }
      { fold aq. intros i Hr. apply Hrd. auto. }
      { rewrite <- Eq. lia. }
      cbv beta. cbn [setval setseen setmd dom rd val md seen]. rewrite <- Eq. fold aq. intros _ n4 g2 Hdel Hn4. split; [lia|]. apply wp_ret.
      replace (S (Z.to_nat (Z.log2 (len s)))) with (Z.to_nat (Z.log2 (len s) + 1)) by lia.
      eapply Hgo; [exact Hsa1| | | |exact Hdel| |lia|lia]; [reflexivity|reflexivity|reflexivity|].
      intros u. eapply ljoin_big; try eassumption; fold aq; lia.
    + eapply wp_addinc; [lia|reflexivity|apply Hidle1| |apply Hidle1| |].
      { cbn. destruct (Z.ltb_spec ng mg); [reflexivity|lia]. }
      { apply (ltwice_of aq ar); [lia|lia|intros i Hi; apply Hdom; auto|intros i Hi; apply Hdom; auto|exact Rdis]. }
      intros z. eapply wp_forkcredit with (d1 := reg ar) (P1 := lsortedL lo' hi' v1)
        (P2 := fun u => lsortedL lo' hi' v1 u -> a_P a1 u)
        (n1 := Z.to_nat (cSort (len ar) + 4)) (n2 := Z.to_nat (cSort (len aq)));
        [reflexivity|reflexivity|apply Hidle1| | | | |lia| | ].
      { intros i Hr. apply Hdom. auto. }
      { apply (lmany_of ar); [lia|auto]. }
      { apply (lmany_of aq); [lia|]. intros i Hi. split; [apply Hdom; auto|]. intro Hi'. exact (Rdis i Hi Hi'). }
      { cbn. auto. }
      * (* the new goroutine *)
        constructor. cbn [lswBody]. unfold lswGLong.
        apply wp_calln; [lia|lia|exact I|]. cbn [lswBody]. rewrite llong_unfold.
        eapply wp_apply; [apply (IH (len ar)) with (lo := lo') (hi := hi') (a := Act None (lsortedL lo' hi' v1) false false None);
          [lia|lia|lia|lia|lia|lia|reflexivity|split; reflexivity| | |]|rewrite <- Ea; lia|rewrite <- Ea; lia|].
        { auto. } { auto. } { rewrite <- Ea. lia. }
        cbv beta. cbn [setval setseen setmd dom rd val md seen]. rewrite <- Ea. fold ar.
        intros _ n4 g2 (O1 & a2 & Em & Eam & Hi & HO & HD & HR & HV & HP) Hn4. split; [lia|].
        cbn in Eam, HD, HR, HV, HP.
        eapply wp_adddec; [lia|exact Em|apply Hi|apply Hi| |].
        { intros w Hw. apply HP; [|auto].
          intros i Hr Ho. apply Hw. apply HR. auto. }
        intros z' Hz'. unfold signed_off. rewrite Eam. destruct (Z.eqb_spec z' 0).
        -- apply wp_sendlast; [lia|reflexivity|]. apply wp_ret. reflexivity.
        -- apply wp_ret. reflexivity.
      * (* going on with the shorter range *)
        apply wp_ret. cbn [setval setseen setmd dom rd val md seen].
        set (a2 := forked (setcredit a1) (fun u => lsortedL lo' hi' v1 u -> a_P a1 u)).
        eapply wp_apply; [apply (IH (len aq)) with (lo := l') (hi := h') (a := a2); [lia|lia|lia|lia|lia|lia|reflexivity|split; [reflexivity|apply Hidle1]| | |]
                        |rewrite <- Eq; lia|rewrite <- Eq; lia|].
        { cbn. fold aq. intros i Hr. split; auto. }
        { cbn. fold aq. intros i Hr. split; auto. }
        { rewrite <- Eq. lia. }
        cbn [val]. fold aq. intros _ n4 g3 Hdel Hn4.
        eapply (delegated_fork (reg s) (reg aq) (reg ar)) with (S1 := lsortedL l' h' v1) (S2 := lsortedL lo' hi' v1)
          (g1 := Gst (dom g) (rd g) v1 (MAct (setcredit a1)) mg) (a1 := setcredit a1);
          [split; reflexivity|reflexivity|reflexivity|exact Hf1|exact Raq|exact Rar|exact Rdis
          |apply reg_dec|intros u; eapply ljoin_big; try eassumption; fold aq; lia|exact Hdel].
Qed.

Lemma wp_lswLong lo hi g a :
  maxRec < hi - lo + 1 -> 0 <= lo -> hi < cap -> 11 * hi + 29 < 20 * wq ->
  md g = MAct a -> idle a ->
  (forall i, reg (rng lo hi) i -> dom g i) -> (forall i, reg (rng lo hi) i -> rd g i) ->
  (Z.to_nat (Z.log2 (hi - lo + 1) + 2) <= Dm)%nat ->
  wp (Z.to_nat (Z.log2 (hi - lo + 1) + 1))
    (fun _ _ g' => delegated (reg (rng lo hi)) (lsortedL lo hi (val g)) g a g')
    (Z.to_nat (cSort (hi - lo + 1))) (lswLong lt cap tn meanI lo hi true) g.
Proof. intros. rewrite llong_unfold. eapply wp_lswLong_gen; [apply Z.le_refl|eassumption..]. Qed.

(** gLong started on its own range. *)
Lemma wpT_lswGLong lo hi v :
  maxRec < hi - lo + 1 -> 0 <= lo -> hi < cap -> 11 * hi + 29 < 20 * wq ->
  (Z.to_nat (Z.log2 (hi - lo + 1) + 2) <= Dm)%nat ->
  W (Z.to_nat (cSort (hi - lo + 1) + 4)) (body (LGLong lo hi))
    (Gst (reg (rng lo hi)) (reg (rng lo hi)) v (MAct (Act None (lsortedL lo hi v) false false None)) 0).
Proof.
  intros Hs H0 Hcap Hb HDm. set (m := hi - lo + 1) in *. set (s := rng lo hi).
  assert (C1 := cSort_pos m). assert (L0 := Z.log2_nonneg m).
  constructor. cbn [lswBody]. unfold lswGLong.
  apply wp_calln; [lia|lia|exact I|]. cbn [lswBody].
  eapply wp_apply; [apply (wp_lswLong lo hi) with (a := Act None (lsortedL lo hi v) false false None);
    [exact Hs|exact H0|exact Hcap|exact Hb|reflexivity|split; reflexivity|auto|auto|exact HDm]|fold m; lia|fold m; lia|].
  cbv beta. cbn [setval setseen setmd dom rd val md seen]. fold m.
  intros _ n4 g2 (O1 & a2 & Em & Ea & Hi & HO & HD & HR & HV & HP) Hn4. split; [lia|].
  cbn in Ea, HD, HR, HV, HP.
  eapply wp_adddec; [lia|exact Em|apply Hi|apply Hi| |].
  { intros w Hw. apply HP; [|auto]. intros i Hr Ho. apply Hw. apply HR. auto. }
  intros z' Hz'. unfold signed_off. rewrite Ea. destruct (Z.eqb_spec z' 0).
  - apply wp_sendlast; [lia|reflexivity|]. apply wp_ret. reflexivity.
  - apply wp_ret. reflexivity.
Qed.

End Long.
