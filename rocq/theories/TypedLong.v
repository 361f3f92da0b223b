(** * longX and gLongX *)

From Coq Require Import List ZArith Lia Bool Permutation.
From Verif Require Import Lang SeqLogic Yields ConcLogic Base Scalar Typed SeqOps ScalarFacts TypedPart
  TypedPivot TypedShort ConcSort.
Import ListNotations.
Open Scope Z_scope.

Local Arguments Z.mul : simpl never.
Local Arguments Z.add : simpl never.
Local Arguments Z.sub : simpl never.
Local Arguments Z.pow : simpl never.

Ltac sv := repeat match goal with
  |- context[setval (setval ?g ?v) ?w] => change (setval (setval g v) w) with (setval g w) end.

Definition reg_dec (s : slice) (i : Z) : {reg s i} + {~ reg s i}.
Proof.
  unfold reg. destruct (Z_le_dec (off s) i); [|right; lia].
  destruct (Z_lt_dec i (off s + len s)); [left; lia|right; lia].
Defined.

(** Work is only handed over in ranges of more than maxRec elements. *)
Definition typedGrain {Wd : word} {T K} (kd : kind T K) (tn : tuning) : grain := Grain (Z.to_nat (maxRec kd tn)) false.
Global Instance thawed_typed {Wd : word} {T K} (kd : kind T K) (tn : tuning) : thawed (typedGrain kd tn).
Proof. reflexivity. Qed.

Section Long.
Context {Wd : word}.
Context {T K : Type}.
Variable kd : kind T K.
Variable tn : tuning.
Variable meanI : Z -> Z -> Z.
Variable ok : K -> Prop.
Hypothesis LW : laws kd ok.

Notation maxIns := (maxIns kd tn).
Notation maxRec := (maxRec kd tn).
Hypothesis HIns : 9 <= maxIns.
Hypothesis HRec : 2 * maxIns < maxRec.

Notation body := (body kd tn).
Notation swp := (swp body).
Notation sortedP := (sortedP kd).
Notation okOn := (okOn kd ok).
Notation parted := (parted kd ok).

(** The loop body of longX. *)
Definition longBody (sv : bool) : slice -> cmd (proc K) T (slice + unit) :=
  (fun ar =>
    pv <- pivot kd ar (nsamples kd nsLong) ;;
    k <- partOne kd ar pv ;;
    '(aq, ar) <- split ar k ;;
    if len aq <=? maxRec then
      (if maxIns <? len aq then Call (PShort aq) (Ret tt) else insertion (ltT kd) aq) ;;;
      if maxRec <? len ar then goto ar
      else Call (PShort ar) (done tt)
    else
      full <- (if sv then gorFull else Ret true) ;;
      if full : bool then
        Call (PLong aq sv) (goto ar)
      else
        AddGor 1 (fun _ => Fork (PGLong ar) (goto aq)))%cmd.

Lemma long_unfold s sv : long kd tn s sv = Loop s (longBody sv).
Proof. reflexivity. Qed.

(** The short range: shortX or insertionX. *)
Lemma swp_small s v :
  1 <= len s -> len s < 2 * wq -> okOn s v ->
  swp (Z.to_nat (Z.log2 (len s) + 1)) (Z.to_nat (cSort (len s) + 2)) (reg s) (reg s)
    (fun _ _ v' => sortedP s v v')
    (if maxIns <? len s then Call (PShort s) (Ret tt) else insertion (ltT kd) s) v.
Proof.
  intros H1 H2 Hok. assert (H0 := Z.log2_nonneg (len s)). assert (C0 := cSort_pos (len s)).
  destruct (Z.ltb_spec maxIns (len s)) as [C|C].
  - replace (Z.to_nat (Z.log2 (len s) + 1)) with (S (Z.to_nat (Z.log2 (len s)))) by lia.
    apply swp_call; [lia|]. cbn [Typed.body].
    eapply swp_apply; [apply (swp_short kd tn ok LW HIns s v C H2 Hok)|lia|lia|auto|auto|].
    cbv beta. intros _ m v' Hs _ Hm. split; [lia|]. apply swp_ret. exact Hs.
  - assert (Ci := cIns_cSort (len s) H1). assert (Ci' := cIns_pos (len s) ltac:(lia)).
    eapply swp_apply; [apply (swp_ins kd tn ok LW s v 0); [lia|exact Hok]|lia|lia|auto|auto|].
    cbv beta. auto.
Qed.

Lemma sortedP_local s v u u' :
  (forall i, reg s i -> u' i = u i) -> sortedP s v u -> sortedP s v u'.
Proof. intros E H. eapply sortedP_ext; [exact H|auto|exact E]. Qed.

Lemma sortedP_init s v w u :
  (forall i, reg s i -> w i = v i) -> sortedP s v u -> sortedP s w u.
Proof. intros E H. eapply sortedP_ext; [exact H|exact E|auto]. Qed.

Lemma swp_long_gen : forall N s v,
  len s <= N -> maxRec < len s -> len s < 2 * wq -> okOn s v ->
  swp (Z.to_nat (Z.log2 (len s) + 1)) (Z.to_nat (cSort (len s))) (reg s) (reg s)
    (fun _ _ v' => sortedP s v v') (Loop s (longBody false)) v.
Proof.
  intro N. induction (Z.lt_wf 0 N) as [N _ IH]. intros s v HN Hs Hb Hok.
  assert (C1 := cSort_pos (len s)).
  assert (Cm : 100 * 12 * len s <= cSort (len s)) by (unfold cSort; nia).
  apply swp_loop; [lia|]. unfold longBody at 1.
  apply swp_bind. eapply swp_apply;
    [apply (swp_pivot kd _ ok LW s nsLong v 0); [right; reflexivity|unfold nsLong; lia|lia|intros; apply Hok; unfold reg; lia]
    |lia|unfold cPivot; lia|auto|intros ? []|].
  cbv beta. intros pv n1 v1 [-> Hpiv] _ Hn1. apply good_proper in Hpiv; [|lia].
  apply swp_bind. eapply swp_apply;
    [apply (swp_partOne_proper kd tn ok LW s pv v 0 Hpiv Hok)|lia|unfold cPivot, cPart in *; lia|auto|auto|].
  cbv beta. intros k n2 v1 Hpart Hf1 Hn2.
  assert (Hk : 1 <= k <= len s - 1) by apply Hpart.
  apply swp_bind, swp_split; [lia|]. intros aq ar Hsp.
  destruct (isSplit_reg s k aq ar Hk Hsp) as (Raq & Rar & Rdis & Haq & Har & Hsum & Hle & Hoff).
  assert (Hok1 : okOn s v1) by (eapply okOn_perm; [exact Hok|apply Hpart]).
  assert (Lq := log2_half (len aq) (len s) Haq ltac:(lia)).
  assert (La : Z.log2 (len ar) <= Z.log2 (len s)) by (apply Z.log2_le_mono; lia).
  assert (Lq0 := Z.log2_nonneg (len aq)). assert (La0 := Z.log2_nonneg (len ar)).
  assert (Cj := cSort_join (len aq) (len ar) (len s) (100 * len s + 500) Haq Har Hsum ltac:(lia) ltac:(lia)).
  assert (Cq0 := cSort_pos (len aq)). assert (Ca0 := cSort_pos (len ar)).
  assert (Hn2' : cSort (len aq) + cSort (len ar) + 15 <= Z.of_nat n2) by (unfold cPivot, cPart in *; lia).
  assert (Hgo : forall n v2, sortedP aq v1 v2 -> (forall i, ~ reg aq i -> v2 i = v1 i) ->
    cSort (len ar) + 1 <= Z.of_nat n -> maxRec < len ar ->
    swp (Z.to_nat (Z.log2 (len s) + 1)) n (reg s) (reg s)
      (fun _ _ v' => sortedP s v v') (Loop ar (longBody false)) v2).
  { intros n v2 Hsq Hf2 Hn Hbig.
    assert (E12 : forall i, reg ar i -> v2 i = v1 i).
    { intros i Hi. apply Hf2. intro Hq. exact (Rdis i Hq Hi). }
    eapply swp_apply; [apply (IH (len ar)); [lia|lia|lia|lia|]
                      |lia|lia|exact Rar|exact Rar|].
    { eapply okOn_ext; [eapply okOn_sub; [exact Hok1|exact Rar]|exact E12]. }
    cbv beta. intros _ n4 v3 Hsa Hf3 Hn4.
    apply (sortedP_join kd ok LW s k aq ar v v1 v3 Hok Hpart Hsp).
    - eapply sortedP_ext; [exact Hsq|auto|]. intros i Hi. apply Hf3. intro Ha. exact (Rdis i Hi Ha).
    - eapply sortedP_ext; [exact Hsa| |auto]. intros i Hi. symmetry. apply E12; exact Hi. }
  destruct (Z.leb_spec (len aq) maxRec) as [Cc|Cc].
  - apply swp_bind. eapply swp_apply;
      [apply (swp_small aq v1); [lia|lia|eapply okOn_sub; [exact Hok1|exact Raq]]
      |lia|lia|exact Raq|exact Raq|].
    cbv beta. intros _ n3 v2 Hsq Hf2 Hn3.
    destruct (Z.ltb_spec maxRec (len ar)) as [Cr|Cr].
    + apply swp_ret. apply Hgo; [exact Hsq|exact Hf2|lia|exact Cr].
    + replace (Z.to_nat (Z.log2 (len s) + 1)) with (S (Z.to_nat (Z.log2 (len s)))) by lia.
      assert (E12 : forall i, reg ar i -> v2 i = v1 i).
      { intros i Hi. apply Hf2. intro Hq. exact (Rdis i Hq Hi). }
      apply swp_call; [lia|]. cbn [Typed.body].
      eapply swp_apply; [apply (swp_short kd tn ok LW HIns ar v2); [lia|lia|]
                        |lia|lia|exact Rar|exact Rar|].
      { eapply okOn_ext; [eapply okOn_sub; [exact Hok1|exact Rar]|exact E12]. }
      cbv beta. intros _ n4 v3 Hsa Hf3 Hn4. split; [lia|]. apply swp_ret.
      apply (sortedP_join kd ok LW s k aq ar v v1 v3 Hok Hpart Hsp).
      * eapply sortedP_ext; [exact Hsq|auto|]. intros i Hi. apply Hf3. intro Ha. exact (Rdis i Hi Ha).
      * eapply sortedP_ext; [exact Hsa| |auto]. intros i Hi. symmetry. apply E12; exact Hi.
  - apply swp_bind, swp_ret.
    replace (Z.to_nat (Z.log2 (len s) + 1)) with (S (Z.to_nat (Z.log2 (len s)))) by lia.
    apply swp_call; [lia|]. cbn [Typed.body]. rewrite long_unfold.
    eapply swp_apply; [apply (IH (len aq)); [lia|lia|lia|lia|eapply okOn_sub; [exact Hok1|exact Raq]]
                      |lia|lia|exact Raq|exact Raq|].
    cbv beta. intros _ n3 v2 Hsq Hf2 Hn3. split; [lia|]. apply swp_ret.
    replace (S (Z.to_nat (Z.log2 (len s)))) with (Z.to_nat (Z.log2 (len s) + 1)) by lia.
    apply Hgo; [exact Hsq|exact Hf2|lia|lia].
Qed.

Lemma swp_long s v :
  maxRec < len s -> len s < 2 * wq -> okOn s v ->
  swp (Z.to_nat (Z.log2 (len s) + 1)) (Z.to_nat (cSort (len s))) (reg s) (reg s)
    (fun _ _ v' => sortedP s v v') (long kd tn s false) v.
Proof. intros. rewrite long_unfold. eapply swp_long_gen; [apply Z.le_refl|assumption..]. Qed.

(** ** The result, exactly

    Besides being sorted, the result is that of the sequential code: shortX or insertionX, longX
    without syncVar. *)

Definition smallCmd (s : slice) : cmd (proc K) T unit :=
  if maxIns <? len s then Call (PShort s) (Ret tt) else insertion (ltT kd) s.

Definition sortedS (s : slice) (v u : Z -> T) : Prop :=
  sortedP s v u /\ outs body (smallCmd s) (reg s) v tt u.
Definition sortedL (s : slice) (v u : Z -> T) : Prop :=
  sortedP s v u /\ outs body (long kd tn s false) (reg s) v tt u.

Lemma sortedS_local s v u u' :
  (forall i, reg s i -> u' i = u i) -> sortedS s v u -> sortedS s v u'.
Proof. intros E [H1 H2]. split; [eapply sortedP_local; eassumption|eapply outs_local; eassumption]. Qed.

Lemma sortedL_local s v u u' :
  (forall i, reg s i -> u' i = u i) -> sortedL s v u -> sortedL s v u'.
Proof. intros E [H1 H2]. split; [eapply sortedP_local; eassumption|eapply outs_local; eassumption]. Qed.

Lemma sortedL_init s v w u :
  (forall i, reg s i -> w i = v i) -> sortedL s v u -> sortedL s w u.
Proof.
  intros E [H1 H2]. split; [eapply sortedP_init; eassumption|eapply outs_init; eassumption].
Qed.

(** One round of longX: [v1] is [v] partitioned, [aq] the shorter and [ar] the longer range. *)
Definition roundOf (s : slice) (v : Z -> T) (pv : K) (k : Z) (v1 : Z -> T) (aq ar : slice) : Prop :=
  yields body (reg s) (pivot kd s (nsamples kd nsLong)) v pv v /\ yields body (reg s) (partOne kd s pv) v k v1 /\
  yields body empty (split s k) v1 (aq, ar) v1.

Lemma isSplit_cover s k aq ar i : isSplit s k aq ar -> reg s i -> reg aq i \/ reg ar i.
Proof. intros [H _]. unfold reg. lia. Qed.

(** The longer range after the shorter one. *)
Lemma join_exact s pv k v v1 aq ar (cq ca : cmd (proc K) T unit) u :
  isSplit s k aq ar -> (forall i, reg aq i -> ~ reg ar i) ->
  (forall i, reg aq i -> reg s i) -> (forall i, reg ar i -> reg s i) ->
  roundOf s v pv k v1 aq ar ->
  outs body cq (reg aq) v1 tt u -> outs body ca (reg ar) v1 tt u ->
  (forall v2 v3, yields body (reg s) (pivot kd s (nsamples kd nsLong)) v pv v -> yields body (reg s) (partOne kd s pv) v k v1 ->
     yields body (reg s) (split s k) v1 (aq, ar) v1 ->
     yields body (reg s) cq v1 tt v2 -> yields body (reg s) ca v2 tt v3 -> yields body (reg s) (long kd tn s false) v tt v3) ->
  outs body (long kd tn s false) (reg s) v tt u.
Proof.
  intros Hsp Rdis Rq Ra (Ypv & Yk & Ys) (w1 & Y1 & U1) O2 HY.
  assert (O3 : outs body ca (reg ar) w1 tt u).
  { eapply outs_init; [|exact O2]. intros i Hi. apply (yields_frame _ _ _ _ _ _ Y1). intro Hi'. exact (Rdis i Hi' Hi). }
  destruct O3 as (w2 & Y2 & U2). exists w2.
  split; [apply (HY w1 w2); [exact Ypv|exact Yk| | |]; eapply yields_mono; eauto; intros i []|]. intros i Hi.
  destruct (isSplit_cover s k aq ar i Hsp Hi) as [Hi'|Hi']; [|auto].
  rewrite U1 by exact Hi'. symmetry. apply (yields_frame _ _ _ _ _ _ Y2). apply Rdis. exact Hi'.
Qed.

Section Join.
Variables (s : slice) (pv : K) (k : Z) (v v1 : Z -> T) (aq ar : slice).
Hypothesis (Hok : okOn s v) (Hpart : parted s k v v1)
  (Hsp : isSplit s k aq ar) (HR : roundOf s v pv k v1 aq ar).

Let Hk : 1 <= k <= len s - 1 := proj1 Hpart.

Lemma join_big u : maxRec < len aq -> sortedL aq v1 u -> sortedL ar v1 u -> sortedL s v u.
Proof.
  intros Hc [P1 O1] [P2 O2]. destruct (isSplit_reg s k aq ar Hk Hsp) as (Raq & Rar & Rdis & Haq & Har & Hsum & Hle & Hoff).
  split; [eapply (sortedP_join kd ok LW); eassumption|].
  eapply join_exact; [exact Hsp|exact Rdis|exact Raq|exact Rar|exact HR|exact O1|exact O2|].
  - intros v2 v3 Ypv Yk Ys Y2 Y3. rewrite long_unfold. eapply yields_loop.
    + unfold longBody. eapply yields_bind; [exact Ypv|]. eapply yields_bind; [exact Yk|]. eapply yields_bind; [exact Ys|].
      cbv beta iota. destruct (Z.leb_spec (len aq) maxRec); [lia|].
      eapply yields_bind; [apply yields_ret|]. cbv beta iota. eapply yields_call; [exact Y2|apply yields_ret].
    + cbv beta iota. exact Y3.
Qed.

Lemma join_small u : len aq <= maxRec -> maxRec < len ar -> sortedS aq v1 u -> sortedL ar v1 u -> sortedL s v u.
Proof.
  intros Hc Hc' [P1 O1] [P2 O2]. destruct (isSplit_reg s k aq ar Hk Hsp) as (Raq & Rar & Rdis & Haq & Har & Hsum & Hle & Hoff).
  split; [eapply (sortedP_join kd ok LW); eassumption|].
  eapply join_exact; [exact Hsp|exact Rdis|exact Raq|exact Rar|exact HR|exact O1|exact O2|].
  - intros v2 v3 Ypv Yk Ys Y2 Y3. rewrite long_unfold. eapply yields_loop.
    + unfold longBody. eapply yields_bind; [exact Ypv|]. eapply yields_bind; [exact Yk|]. eapply yields_bind; [exact Ys|].
      cbv beta iota. destruct (Z.leb_spec (len aq) maxRec); [|lia].
      eapply yields_bind; [exact Y2|]. cbv beta. destruct (Z.ltb_spec maxRec (len ar)); [|lia]. apply yields_ret.
    + cbv beta iota. exact Y3.
Qed.

Lemma join_last u : len aq <= maxRec -> len ar <= maxRec -> maxIns < len ar -> sortedS aq v1 u -> sortedS ar v1 u -> sortedL s v u.
Proof.
  intros Hc Hc' Hi [P1 O1] [P2 O2]. destruct (isSplit_reg s k aq ar Hk Hsp) as (Raq & Rar & Rdis & Haq & Har & Hsum & Hle & Hoff).
  split; [eapply (sortedP_join kd ok LW); eassumption|].
  eapply join_exact; [exact Hsp|exact Rdis|exact Raq|exact Rar|exact HR|exact O1|exact O2|].
  - intros v2 v3 Ypv Yk Ys Y2 Y3. rewrite long_unfold. eapply yields_loop with (r := inr tt).
    + unfold longBody. eapply yields_bind; [exact Ypv|]. eapply yields_bind; [exact Yk|]. eapply yields_bind; [exact Ys|].
      cbv beta iota. destruct (Z.leb_spec (len aq) maxRec); [|lia].
      eapply yields_bind; [exact Y2|]. cbv beta. destruct (Z.ltb_spec maxRec (len ar)); [lia|].
      unfold smallCmd in Y3. destruct (Z.ltb_spec maxIns (len ar)); [|lia].
      destruct (yields_call_inv body _ _ _ _ _ _ Y3) as (w & Y & Y'). apply yields_ret_inv in Y'. destruct Y' as [_ ->].
      eapply yields_call; [exact Y|apply yields_ret].
    + cbv beta iota. auto.
Qed.

End Join.

(** ** With syncVar *)

Variable Dm : nat.
Notation G := (typedGrain kd tn).
Notation W := (wpT (Gr := G) body Dm).
Notation wp := (wp (Gr := G) body W).

Lemma many_of s (d : cells) : maxRec < len s -> (forall i, reg s i -> d i) -> many (Gr := G) d.
Proof. intros H Hd. apply (atLeast_reg _ s); [exact Hd|]. unfold gr, typedGrain. lia. Qed.

Lemma twice_of s s' (d : cells) : maxRec < len s -> maxRec < len s' ->
  (forall i, reg s i -> d i) -> (forall i, reg s' i -> d i) -> (forall i, reg s i -> reg s' i -> False) ->
  twice (Gr := G) d.
Proof.
  intros H H' Hd Hd' Hn. apply (atLeast_app _ _ d (reg s) (reg s')); [exact Hd|exact Hd'|exact Hn|apply (many_of s)|apply (many_of s')]; auto.
Qed.

Lemma twice_one s (d : cells) : 2 * (maxRec + 1) <= len s -> (forall i, reg s i -> d i) -> twice (Gr := G) d.
Proof. intros H Hd. apply (atLeast_reg _ s); [exact Hd|]. unfold gr, typedGrain. lia. Qed.

Lemma wp_long_gen : forall N s g a,
  len s <= N -> maxRec < len s -> len s < 2 * wq -> okOn s (val g) ->
  md g = MAct a -> idle a ->
  (forall i, reg s i -> dom g i) -> (forall i, reg s i -> rd g i) ->
  (Z.to_nat (Z.log2 (len s) + 2) <= Dm)%nat ->
  wp (Z.to_nat (Z.log2 (len s) + 1))
    (fun _ _ g' => delegated (reg s) (sortedL s (val g)) g a g')
    (Z.to_nat (cSort (len s))) (Loop s (longBody true)) g.
Proof.
  intro N. induction (Z.lt_wf 0 N) as [N _ IH]. intros s g a HN Hs Hb Hok Hmd Hidle Hdom Hrd HDm.
  assert (Hlive : live g) by (unfold live; rewrite Hmd; exact I).
  assert (C1 := cSort_pos (len s)).
  assert (Cm : 100 * 12 * len s <= cSort (len s)) by (unfold cSort; nia).
  apply wp_loop; [lia|]. unfold longBody at 1.
  apply wp_bind. eapply wp_sapply;
    [typeclasses eauto|exact Hlive|apply swp_exactlyR, (swp_pivot kd _ ok LW s nsLong (val g) 0); [right; reflexivity|unfold nsLong; lia|lia|intros; apply Hok; unfold reg; lia]
    |lia|unfold cPivot; lia|exact Hrd|intros ? []|].
  cbv beta. intros pv n1 v1 [[-> Hpiv] Ypv] _ Hn1. apply good_proper in Hpiv; [|lia].
  apply wp_bind. eapply wp_sapply;
    [typeclasses eauto|exact Hlive|apply swp_exactly, (swp_partOne_proper kd tn ok LW s pv (val g) 0 Hpiv Hok)|lia|unfold cPivot, cPart in *; lia|exact Hrd|exact Hdom|].
  cbv beta. cbn [setval dom rd val md seen]. intros k n2 v1 [Hpart Yk] Hf1 Hn2.
  assert (Hk : 1 <= k <= len s - 1) by apply Hpart.
  apply wp_bind. eapply wp_sapply with (n1 := O) (D1 := O)
    (Post := fun x v' => (let '(aq, ar) := x in isSplit s k aq ar /\ v' = v1) /\ yields body empty (split s k) v1 x v') (R1 := empty) (W1 := empty);
    [typeclasses eauto|exact Hlive|apply (swp_exactly body _ _ _ (fun x v' => let '(aq, ar) := x in isSplit s k aq ar /\ v' = v1)); apply swp_split; [lia|auto]|lia|lia|intros ? []|intros ? []|].
  intros [aq ar] n3 v' [[Hsp ->] Ysp] _ Hn3.
  assert (HRo : roundOf s (val g) pv k v1 aq ar) by (split; [exact Ypv|split; [exact Yk|exact Ysp]]). cbn [setval dom rd val md seen].
  destruct (isSplit_reg s k aq ar Hk Hsp) as (Raq & Rar & Rdis & Haq & Har & Hsum & Hle & Hoff).
  assert (Hok1 : okOn s v1) by (eapply okOn_perm; [exact Hok|apply Hpart]).
  assert (Lq := log2_half (len aq) (len s) Haq ltac:(lia)).
  assert (La : Z.log2 (len ar) <= Z.log2 (len s)) by (apply Z.log2_le_mono; lia).
  assert (Lq0 := Z.log2_nonneg (len aq)). assert (La0 := Z.log2_nonneg (len ar)).
  assert (Cj := cSort_join (len aq) (len ar) (len s) (100 * len s + 500) Haq Har Hsum ltac:(lia) ltac:(lia)).
  assert (Cq0 := cSort_pos (len aq)). assert (Ca0 := cSort_pos (len ar)).
  assert (Hn3' : cSort (len aq) + cSort (len ar) + 15 <= Z.of_nat n3) by (unfold cPivot, cPart in *; lia).
  clear Hn1 Hn2 Hn3 n1 n2. rename n3 into n.
  sv.
  assert (Hoff1 : reg aq (off aq)) by (unfold reg; lia).
  assert (Hoff2 : reg ar (off ar)) by (unfold reg; lia).
  assert (HokR : okOn ar v1) by (eapply okOn_sub; [exact Hok1|exact Rar]).
  assert (Rdis' : forall i, reg ar i -> ~ reg aq i) by (intros i H1 H2; exact (Rdis i H2 H1)).
  (* continuing with the longer range after the shorter one *)
  assert (Hgo : forall n g1 a1 g2 Sq, sameact a a1 -> (forall i, dom g1 i <-> dom g i) -> (forall i, rd g1 i <-> rd g i) ->
    val g1 = v1 -> delegated (reg aq) Sq g1 a1 g2 ->
    (forall u, Sq u -> sortedL ar v1 u -> sortedL s (val g) u) ->
    cSort (len ar) + 1 <= Z.of_nat n -> maxRec < len ar ->
    wp (Z.to_nat (Z.log2 (len s) + 1))
      (fun _ _ g' => delegated (reg s) (sortedL s (val g)) g a g') n (Loop ar (longBody true)) g2).
  { intros m g1 a1 g2 Sq Hsa Ed Er Ev Hdel HJ Hm Hbig.
    assert (Hdel0 := Hdel).
    destruct Hdel as (O1 & a2 & Em & Ea & Hi & HO & HD & HR & HV & HP).
    assert (E12 : forall i, reg ar i -> val g2 i = v1 i).
    { intros i Hi2. rewrite HV, Ev; [reflexivity|]. auto. }
    eapply wp_apply; [apply (IH (len ar)) with (a := a2); [lia|lia|lia|lia| |exact Em|exact Hi| | |lia]
                      |lia|lia|].
    { eapply okOn_ext; [eapply okOn_sub; [exact Hok1|exact Rar]|exact E12]. }
    { intros i Hr. apply HD. rewrite Ed. split; [auto|]. intro Ho. apply HO in Ho. exact (Rdis i Ho Hr). }
    { intros i Hr. apply HR. rewrite Er. split; [auto|]. intro Ho. apply HO in Ho. exact (Rdis i Ho Hr). }
    cbv beta. intros _ n4 g3 Hdel3 Hn4.
    eapply (delegated_seq (reg s) (reg aq) (reg ar)) with (S1 := Sq) (S2 := sortedL ar (val g2));
      [exact Hsa|exact Ed|exact Er|intros i Hi2; rewrite Ev; apply Hf1; exact Hi2
      |exact Raq|exact Rar|exact Rdis|apply sortedL_local| |exact Hdel0|].
    - intros u Hu1 Hu2. apply HJ; [exact Hu1|]. eapply sortedL_init; [|exact Hu2].
      intros i Hr. symmetry. apply E12; exact Hr.
    - intros a3 Ha3. rewrite Em in Ha3. injection Ha3 as <-. exact Hdel3. }
  destruct (Z.leb_spec (len aq) maxRec) as [Cc|Cc].
  - apply wp_bind. eapply wp_sapply;
      [typeclasses eauto|exact Hlive|apply swp_exactly, (swp_small aq v1); [lia|lia|eapply okOn_sub; [exact Hok1|exact Raq]]
      |lia|lia|intros; apply Hrd; auto|intros; apply Hdom; auto|].
    cbv beta. cbn [setval dom rd val md seen]. intros [] n3 v2 [Hsq Yq] Hf2 Hn3.
    sv.
    assert (HSq : sortedS aq v1 v2) by (split; [exact Hsq|exists v2; auto]).
    assert (Hdel : delegated (reg aq) (sortedS aq v1) (setval g v1) a (setval (setval g v1) v2)).
    { apply delegated_local; [exact Hmd|exact Hidle|exact Hf2|].
      intros u Hu. eapply sortedS_local; [exact Hu|exact HSq]. }
    change (setval (setval g v1) v2) with (setval g v2) in Hdel.
    destruct (Z.ltb_spec maxRec (len ar)) as [Cr|Cr].
    + apply wp_ret. eapply (Hgo n3 (setval g v1) a); [split; reflexivity|reflexivity|reflexivity|reflexivity
        |exact Hdel| |lia|exact Cr].
      intros u. eapply join_small; eassumption.
    + replace (Z.to_nat (Z.log2 (len s) + 1)) with (S (Z.to_nat (Z.log2 (len s)))) by lia.
      assert (E12 : forall i, reg ar i -> v2 i = v1 i) by (intros i Hi; apply Hf2; auto).
      apply wp_call; [lia|exact Hlive|]. cbn [Typed.body].
      eapply wp_sapply; [typeclasses eauto|exact Hlive|apply swp_exactly, (swp_short kd tn ok LW HIns ar v2); [lia|lia|]
                        |lia|lia|intros; apply Hrd; auto|intros; apply Hdom; auto|].
      { eapply okOn_ext; [eapply okOn_sub; [exact Hok1|exact Rar]|exact E12]. }
      cbv beta. cbn [setval dom rd val md seen]. intros [] n4 v3 [Hsa Ya] Hf3 Hn4. split; [lia|]. apply wp_ret.
      sv.
      apply delegated_local; [exact Hmd|exact Hidle| |].
      * intros i Hi. rewrite Hf3, Hf2, Hf1; auto.
      * assert (Yc : yields body (reg ar) (smallCmd ar) v2 tt v3).
        { unfold smallCmd. destruct (Z.ltb_spec maxIns (len ar)); [|lia]. eapply yields_call; [exact Ya|apply yields_ret]. }
        intros u Hu. eapply join_last; try eassumption; [lia| |].
        -- eapply sortedS_local; [|exact HSq]. intros i Hi. rewrite Hu by auto. apply Hf3; auto.
        -- eapply sortedS_local; [intros i Hi; apply Hu; auto|]. split.
           ++ eapply sortedP_init; [|exact Hsa]. intros i Hi. symmetry. auto.
           ++ eapply outs_init; [intros i Hi; symmetry; auto|].
              exists v3. auto.
  - apply wp_bind. unfold gorFull. apply wp_loadmax; [lia|exact Hlive|]. intros mg Hmg.
    eapply wp_loadgor; [lia|exact Hmd|apply Hidle|apply Hidle|]. intros ng.
    cbn [setval setseen setmd dom rd val md seen]. apply wp_ret.
    set (a1 := settok a (ng <? mg)).
    assert (Hsa1 : sameact a a1) by (split; reflexivity).
    assert (Hidle1 : idle a1) by exact Hidle.
    destruct (Z.leb_spec mg ng) as [Cf|Cf].
    + replace (Z.to_nat (Z.log2 (len s) + 1)) with (S (Z.to_nat (Z.log2 (len s)))) by lia.
      apply wp_call; [lia|exact I|]. cbn [Typed.body]. rewrite long_unfold.
      eapply wp_apply; [apply (IH (len aq)) with (a := a1); [lia|lia|lia|lia| |reflexivity|exact Hidle1| | |lia]
                        |lia|lia|].
      { eapply okOn_sub; [exact Hok1|exact Raq]. }
      { intros i Hr. apply Hdom. auto. }
      { intros i Hr. apply Hrd. auto. }
      cbv beta. cbn [setval setseen setmd dom rd val md seen]. intros _ n4 g2 Hdel Hn4. split; [lia|]. apply wp_ret.
      replace (S (Z.to_nat (Z.log2 (len s)))) with (Z.to_nat (Z.log2 (len s) + 1)) by lia.
      eapply Hgo; [exact Hsa1| | | |exact Hdel| |lia|lia]; [reflexivity|reflexivity|reflexivity|].
      intros u. eapply join_big; eassumption.
    + eapply wp_addinc; [lia|reflexivity|apply Hidle1| |apply Hidle1| |].
      { cbn. destruct (Z.ltb_spec ng mg); [reflexivity|lia]. }
      { apply (twice_of aq ar); [lia|lia|intros i Hi; apply Hdom; auto|intros i Hi; apply Hdom; auto|exact Rdis]. }
      intros z. eapply wp_forkcredit with (d1 := reg ar) (P1 := sortedL ar v1)
        (P2 := fun u => sortedL ar v1 u -> a_P a1 u)
        (n1 := Z.to_nat (cSort (len ar) + 4)) (n2 := Z.to_nat (cSort (len aq)));
        [reflexivity|reflexivity|apply Hidle1| | | | |lia| | ].
      { intros i Hr. apply Hdom. auto. }
      { apply (many_of ar); [lia|auto]. }
      { apply (many_of aq); [lia|]. intros i Hi. split; [apply Hdom; auto|]. intro Ha. exact (Rdis i Hi Ha). }
      { cbn. auto. }
      * (* the new goroutine *)
        constructor. cbn [Typed.body]. unfold gLong.
        apply wp_calln; [lia|lia|exact I|]. cbn [Typed.body]. rewrite long_unfold.
        eapply wp_apply; [apply (IH (len ar)) with (a := Act None (sortedL ar v1) false false None);
          [lia|lia|lia|lia| |reflexivity|split; reflexivity| | |lia]|lia|lia|].
        { eapply okOn_sub; [exact Hok1|exact Rar]. }
        { auto. } { auto. }
        cbv beta. cbn [setval setseen setmd dom rd val md seen].
        intros _ n4 g2 (O1 & a2 & Em & Ea & Hi & HO & HD & HR & HV & HP) Hn4. split; [lia|].
        cbn in Ea, HD, HR, HV, HP.
        eapply wp_adddec; [lia|exact Em|apply Hi|apply Hi| |].
        { intros w Hw. apply HP; [|auto].
          intros i Hr Ho. apply Hw. apply HR. auto. }
        intros z' Hz'. unfold signed_off. rewrite Ea. destruct (Z.eqb_spec z' 0).
        -- apply wp_sendlast; [lia|reflexivity|]. apply wp_ret. reflexivity.
        -- apply wp_ret. reflexivity.
      * (* going on with the shorter range *)
        apply wp_ret. cbn [setval setseen setmd dom rd val md seen].
        set (a2 := forked (setcredit a1) (fun u => sortedL ar v1 u -> a_P a1 u)).
        eapply wp_apply; [apply (IH (len aq)) with (a := a2); [lia|lia|lia|lia| |reflexivity|split; [reflexivity|apply Hidle1]| | |lia]
                        |lia|lia|].
        { eapply okOn_sub; [exact Hok1|exact Raq]. }
        { cbn. intros i Hr. split; auto. }
        { cbn. intros i Hr. split; auto. }
        cbn [val]. intros _ n4 g3 Hdel Hn4.
        eapply (delegated_fork (reg s) (reg aq) (reg ar)) with (S1 := sortedL aq v1) (S2 := sortedL ar v1)
          (g1 := Gst (dom g) (rd g) v1 (MAct (setcredit a1)) mg) (a1 := setcredit a1);
          [split; reflexivity|reflexivity|reflexivity|exact Hf1|exact Raq|exact Rar|exact Rdis
          |apply reg_dec|intros u; eapply join_big; eassumption|exact Hdel].
Qed.

Lemma wp_long s g a :
  maxRec < len s -> len s < 2 * wq -> okOn s (val g) ->
  md g = MAct a -> idle a ->
  (forall i, reg s i -> dom g i) -> (forall i, reg s i -> rd g i) ->
  (Z.to_nat (Z.log2 (len s) + 2) <= Dm)%nat ->
  wp (Z.to_nat (Z.log2 (len s) + 1))
    (fun _ _ g' => delegated (reg s) (sortedL s (val g)) g a g')
    (Z.to_nat (cSort (len s))) (long kd tn s true) g.
Proof. intros. rewrite long_unfold. eapply wp_long_gen; [apply Z.le_refl|eassumption..]. Qed.

(** gLongX started on its own range. *)
Lemma wpT_gLong s v :
  maxRec < len s -> len s < 2 * wq -> okOn s v ->
  (Z.to_nat (Z.log2 (len s) + 2) <= Dm)%nat ->
  W (Z.to_nat (cSort (len s) + 4)) (body (PGLong s))
    (Gst (reg s) (reg s) v (MAct (Act None (sortedL s v) false false None)) 0).
Proof.
  intros Hs Hb Hok HDm. assert (C1 := cSort_pos (len s)). assert (L0 := Z.log2_nonneg (len s)).
  constructor. cbn [Typed.body]. unfold gLong.
  apply wp_calln; [lia|lia|exact I|]. cbn [Typed.body].
  eapply wp_apply; [apply (wp_long s) with (a := Act None (sortedL s v) false false None);
    [exact Hs|exact Hb|exact Hok|reflexivity|split; reflexivity|auto|auto|lia]|lia|lia|].
  cbv beta. cbn [setval setseen setmd dom rd val md seen].
  intros _ n4 g2 (O1 & a2 & Em & Ea & Hi & HO & HD & HR & HV & HP) Hn4. split; [lia|].
  cbn in Ea, HD, HR, HV, HP.
  eapply wp_adddec; [lia|exact Em|apply Hi|apply Hi| |].
  { intros w Hw. apply HP; [|auto]. intros i Hr Ho. apply Hw. apply HR. auto. }
  intros z' Hz'. unfold signed_off. rewrite Ea. destruct (Z.eqb_spec z' 0).
  - apply wp_sendlast; [lia|reflexivity|]. apply wp_ret. reflexivity.
  - apply wp_ret. reflexivity.
Qed.

End Long.
