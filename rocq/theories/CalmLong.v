(** * shortX and longX on a slice that is already sorted *)

From Coq Require Import List ZArith Lia Bool.
From Verif Require Import Lang SeqLogic ConcLogic Base Scalar Typed SeqOps ScalarFacts TypedPart TypedPivot
  TypedShort ConcSort TypedLong Calm.
Import ListNotations.
Open Scope Z_scope.

Local Arguments Z.mul : simpl never.
Local Arguments Z.add : simpl never.
Local Arguments Z.sub : simpl never.
Local Arguments Z.pow : simpl never.

Definition calmGrain {Wd : word} {T K} (kd : kind T K) (tn : tuning) : grain := Grain (Z.to_nat (maxRec kd tn)) true.

Definition any {T} : promise T := fun _ => True.

Section Calm.
Context {Wd : word}.
Context {T K : Type}.
Variable kd : kind T K.
Variable tn : tuning.
Variable ok : K -> Prop.
Hypothesis LW : laws kd ok.
Variable bal : bool.

Notation maxIns := (maxIns kd tn).
Notation maxRec := (maxRec kd tn).
Hypothesis HIns : 9 <= maxIns.
Hypothesis HRec : 2 * maxIns < maxRec.
Hypothesis Hbal : bal = true -> maxRec < 2 ^ 32.

Notation body := (body kd tn).
Notation swp := (swp body).
Notation calm := (calm kd ok).
Notation cC := (cCalm bal).

Lemma cCpos n : 0 <= n -> 0 <= cC n.
Proof. intro H. destruct (Z.eq_dec n 0) as [->|]; [unfold cCalm, cLog, cSort; destruct bal; cbn; lia|].
  assert (X := cCalm_low bal n ltac:(lia)). lia. Qed.

Lemma split_bal s k aq ar : cutMid bal s k -> isSplit s k aq ar -> bal = true -> len s <= 3 * len aq.
Proof. intros [H1 H2] [H3 H4] E. specialize (H2 E). lia. Qed.

Lemma swp_short_calm_gen : forall N s v,
  len s <= N -> maxIns < len s <= maxRec -> len s < 2 * wq -> calm s v ->
  swp (Z.to_nat (Z.log2 (len s))) (Z.to_nat (cC (len s))) (reg s) (fun _ => False)
    (fun _ _ v' => v' = v) (Loop (inl s) (shortBody kd tn)) v.
Proof.
  intro N. induction (Z.lt_wf 0 N) as [N _ IH]. intros s v HN Hs Hb Hc.
  assert (Cm := cCalm_mid (len s) bal ltac:(lia)).
  apply swp_loop; [lia|]. unfold shortBody at 1.
  apply swp_bind. eapply swp_apply;
    [apply (swp_pivotShort_calm kd _ ok LW s v 0 bal); [lia|lia|intro E; specialize (Hbal E); lia|exact Hc]
    |lia|lia|auto|intros ? []|].
  cbv beta. intros pv n1 v1 [-> Hpiv] _ Hn1.
  apply swp_bind. eapply swp_apply;
    [apply (swp_partOne_mid kd _ ok LW bal s pv v 0); [lia|exact Hc|exact Hpiv]|lia|unfold cPart; lia|auto|auto|].
  cbv beta. intros k n2 v1 [-> Hcut] _ Hn2.
  assert (Hk : 1 <= k <= len s - 1) by apply Hcut.
  apply swp_bind, swp_split; [lia|]. intros aq ar Hsp.
  destruct (isSplit_reg s k aq ar Hk Hsp) as (Raq & Rar & Rdis & Haq & Har & Hsum & Hle & Hoff).
  assert (Hcq := calm_sub kd ok s aq v Raq Hc). assert (Hca := calm_sub kd ok s ar v Rar Hc).
  assert (Lq := log2_half (len aq) (len s) Haq ltac:(lia)).
  assert (La : Z.log2 (len ar) <= Z.log2 (len s)) by (apply Z.log2_le_mono; lia).
  assert (Lq0 := Z.log2_nonneg (len aq)). assert (La0 := Z.log2_nonneg (len ar)).
  assert (Cj := cCalm_join bal (len aq) (len ar) (len s) Haq Hle Hsum ltac:(lia) (split_bal s k aq ar Hcut Hsp)).
  assert (Cq0 := cCalm_low bal (len aq) Haq). assert (Ca0 := cCalm_low bal (len ar) Har).
  assert (Hn2' : cC (len aq) + cC (len ar) + 40 * len s <= Z.of_nat n2) by (unfold cPart in *; lia).
  destruct (Z.ltb_spec maxIns (len aq)) as [Cc|Cc].
  - replace (Z.to_nat (Z.log2 (len s))) with (S (Z.to_nat (Z.log2 (len s) - 1))) by lia.
    apply swp_bind, swp_call; [lia|]. cbn [Typed.body]. rewrite short_unfold.
    eapply swp_apply; [apply (IH (len aq)); [lia|lia|lia|lia|exact Hcq]
                      |lia|lia|exact Raq|intros ? []|].
    cbv beta. intros _ n3 v2 -> _ Hn3. split; [lia|]. apply swp_ret, swp_ret.
    eapply swp_apply; [apply (IH (len ar)); [lia|lia|lia|lia|exact Hca]
                      |lia|lia|exact Rar|intros ? []|].
    cbv beta. auto.
  - apply swp_ret. apply swp_loop; [lia|]. cbn [shortBody].
    apply swp_bind. eapply swp_apply;
      [apply (swp_ins_calm kd _ ok LW aq v 0); [lia|exact Hcq]|lia|unfold cInsC; lia|exact Raq|intros ? []|].
    cbv beta. intros _ n3 v2 -> _ Hn3. unfold cInsC in Hn3.
    destruct (Z.ltb_spec maxIns (len ar)) as [Cr|Cr].
    + apply swp_ret. eapply swp_apply; [apply (IH (len ar)); [lia|lia|lia|lia|exact Hca]
                      |lia|lia|exact Rar|intros ? []|].
      cbv beta. auto.
    + destruct (Z.ltb_spec 0 (len ar)); [|lia]. destruct (Z.ltb_spec 0 (len aq)); [|lia]. cbn [andb].
      destruct (Z.eqb_spec (off ar) (off aq)) as [Eo|_]; [exfalso; exact (Hoff Eo)|].
      apply swp_ret. apply swp_loop; [lia|]. cbn [shortBody].
      apply swp_bind. eapply swp_apply;
        [apply (swp_ins_calm kd _ ok LW ar v 0); [lia|exact Hca]|lia|unfold cInsC; lia|exact Rar|intros ? []|].
      cbv beta. intros _ n4 v3 -> _ Hn4.
      destruct (Z.ltb_spec maxIns (len ar)); [lia|].
      destruct (Z.ltb_spec 0 (len ar)); [|lia]. cbn [andb].
      rewrite Z.eqb_refl. apply swp_ret. reflexivity.
Qed.

Lemma swp_short_calm s v :
  maxIns < len s <= maxRec -> len s < 2 * wq -> calm s v ->
  swp (Z.to_nat (Z.log2 (len s))) (Z.to_nat (cC (len s))) (reg s) (fun _ => False)
    (fun _ _ v' => v' = v) (short kd tn s) v.
Proof. intros. rewrite short_unfold. eapply swp_short_calm_gen; [apply Z.le_refl|assumption..]. Qed.

Lemma swp_small_calm s v :
  1 <= len s <= maxRec -> len s < 2 * wq -> calm s v ->
  swp (Z.to_nat (Z.log2 (len s) + 1)) (Z.to_nat (cC (len s) + 2)) (reg s) (fun _ => False)
    (fun _ _ v' => v' = v)
    (if maxIns <? len s then Call (PShort s) (Ret tt) else insertion (ltT kd) s) v.
Proof.
  intros H1 H2 Hc. assert (H0 := Z.log2_nonneg (len s)). assert (C0 := cCalm_low bal (len s) ltac:(lia)).
  destruct (Z.ltb_spec maxIns (len s)) as [C|C].
  - replace (Z.to_nat (Z.log2 (len s) + 1)) with (S (Z.to_nat (Z.log2 (len s)))) by lia.
    apply swp_call; [lia|]. cbn [Typed.body].
    eapply swp_apply; [apply (swp_short_calm s v ltac:(lia) H2 Hc)|lia|lia|auto|auto|].
    cbv beta. intros _ m v' -> _ Hm. split; [lia|]. apply swp_ret. reflexivity.
  - eapply swp_apply; [apply (swp_ins_calm kd _ ok LW s v 0); [lia|exact Hc]|lia|unfold cInsC; lia|auto|auto|].
    cbv beta. auto.
Qed.

Lemma swp_long_calm_gen : forall N s v,
  len s <= N -> maxRec < len s -> len s < 2 * wq -> calm s v ->
  swp (Z.to_nat (Z.log2 (len s) + 1)) (Z.to_nat (cC (len s))) (reg s) (fun _ => False)
    (fun _ _ v' => v' = v) (Loop s (longBody kd tn false)) v.
Proof.
  intro N. induction (Z.lt_wf 0 N) as [N _ IH]. intros s v HN Hs Hb Hc.
  assert (Cm := cCalm_mid (len s) bal ltac:(lia)).
  apply swp_loop; [lia|]. unfold longBody at 1.
  apply swp_bind. eapply swp_apply;
    [apply (swp_pivot_calm kd _ ok LW s nsLong v 0); [right; reflexivity|unfold nsLong; lia|lia|exact Hc]
    |lia|unfold cPivot; lia|auto|intros ? []|].
  cbv beta. intros pv n1 v1 [-> Hpiv] _ Hn1.
  apply swp_bind. eapply swp_apply;
    [apply (swp_partOne_mid kd _ ok LW true s pv v 0); [lia|exact Hc|exact Hpiv]|lia|unfold cPivot, cPart in *; lia|auto|auto|].
  cbv beta. intros k n2 v1 [-> Hcut] _ Hn2.
  assert (Hk : 1 <= k <= len s - 1) by apply Hcut.
  apply swp_bind, swp_split; [lia|]. intros aq ar Hsp.
  destruct (isSplit_reg s k aq ar Hk Hsp) as (Raq & Rar & Rdis & Haq & Har & Hsum & Hle & Hoff).
  assert (Hcq := calm_sub kd ok s aq v Raq Hc). assert (Hca := calm_sub kd ok s ar v Rar Hc).
  assert (Lq := log2_half (len aq) (len s) Haq ltac:(lia)).
  assert (La : Z.log2 (len ar) <= Z.log2 (len s)) by (apply Z.log2_le_mono; lia).
  assert (Lq0 := Z.log2_nonneg (len aq)). assert (La0 := Z.log2_nonneg (len ar)).
  assert (Cj : cC (len aq) + cC (len ar) + 100 * len s <= cC (len s)).
  { apply cCalm_join; try lia. destruct Hcut as [_ H2]. destruct Hsp as [H3 H4]. specialize (H2 eq_refl). lia. }
  assert (Cq0 := cCalm_low bal (len aq) Haq). assert (Ca0 := cCalm_low bal (len ar) Har).
  assert (Hn2' : cC (len aq) + cC (len ar) + 15 <= Z.of_nat n2) by (unfold cPivot, cPart in *; lia).
  assert (Hgo : forall n, cC (len ar) + 1 <= Z.of_nat n -> maxRec < len ar ->
    swp (Z.to_nat (Z.log2 (len s) + 1)) n (reg s) (fun _ => False)
      (fun _ _ v' => v' = v) (Loop ar (longBody kd tn false)) v).
  { intros n Hn Hbig.
    eapply swp_apply; [apply (IH (len ar)); [lia|lia|lia|lia|exact Hca]
                      |lia|lia|exact Rar|intros ? []|].
    cbv beta. auto. }
  destruct (Z.leb_spec (len aq) maxRec) as [Cc|Cc].
  - apply swp_bind. eapply swp_apply;
      [apply (swp_small_calm aq v); [lia|lia|exact Hcq]
      |lia|lia|exact Raq|intros ? []|].
    cbv beta. intros _ n3 v2 -> _ Hn3.
    destruct (Z.ltb_spec maxRec (len ar)) as [Cr|Cr].
    + apply swp_ret. apply Hgo; [lia|exact Cr].
    + replace (Z.to_nat (Z.log2 (len s) + 1)) with (S (Z.to_nat (Z.log2 (len s)))) by lia.
      apply swp_call; [lia|]. cbn [Typed.body].
      eapply swp_apply; [apply (swp_short_calm ar v); [lia|lia|exact Hca]
                        |lia|lia|exact Rar|intros ? []|].
      cbv beta. intros _ n4 v3 -> _ Hn4. split; [lia|]. apply swp_ret. reflexivity.
  - apply swp_bind, swp_ret.
    replace (Z.to_nat (Z.log2 (len s) + 1)) with (S (Z.to_nat (Z.log2 (len s)))) by lia.
    apply swp_call; [lia|]. cbn [Typed.body]. rewrite long_unfold.
    eapply swp_apply; [apply (IH (len aq)); [lia|lia|lia|lia|exact Hcq]
                      |lia|lia|exact Raq|intros ? []|].
    cbv beta. intros _ n3 v2 -> _ Hn3. split; [lia|]. apply swp_ret.
    replace (S (Z.to_nat (Z.log2 (len s)))) with (Z.to_nat (Z.log2 (len s) + 1)) by lia.
    apply Hgo; lia.
Qed.

Lemma swp_long_calm s v :
  maxRec < len s -> len s < 2 * wq -> calm s v ->
  swp (Z.to_nat (Z.log2 (len s) + 1)) (Z.to_nat (cC (len s))) (reg s) (fun _ => False)
    (fun _ _ v' => v' = v) (long kd tn s false) v.
Proof. intros. rewrite long_unfold. eapply swp_long_calm_gen; [apply Z.le_refl|assumption..]. Qed.

(** ** With syncVar *)

Variable Dm : nat.
Notation G := (calmGrain kd tn).
Notation W := (wpT (Gr := G) body Dm).
Notation wp := (wp (Gr := G) body W).

Lemma wp_long_calm_gen : forall N s g a,
  len s <= N -> maxRec < len s -> len s < 2 * wq -> calm s (val g) ->
  md g = MAct a -> idle a ->
  (forall i, reg s i -> dom g i) -> (forall i, reg s i -> rd g i) ->
  (Z.to_nat (Z.log2 (len s) + 2) <= Dm)%nat ->
  wp (Z.to_nat (Z.log2 (len s) + 1))
    (fun _ _ g' => delegated (reg s) any g a g')
    (Z.to_nat (cC (len s))) (Loop s (longBody kd tn true)) g.
Proof.
  intro N. induction (Z.lt_wf 0 N) as [N _ IH]. intros s g a HN Hs Hb Hc Hmd Hidle Hdom Hrd HDm.
  assert (Hlive : live g) by (unfold live; rewrite Hmd; exact I).
  assert (Cm := cCalm_mid (len s) bal ltac:(lia)).
  apply wp_loop; [lia|]. unfold longBody at 1.
  apply wp_bind. eapply wp_rapply;
    [exact Hlive|apply (swp_pivot_calm kd _ ok LW s nsLong (val g) 0); [right; reflexivity|unfold nsLong; lia|lia|exact Hc]
    |lia|unfold cPivot; lia|exact Hrd|].
  cbv beta. intros pv n1 v1 [-> Hpiv] _ Hn1.
  apply wp_bind. eapply wp_rapply;
    [exact Hlive|apply (swp_partOne_mid kd _ ok LW true s pv (val g) 0); [lia|exact Hc|exact Hpiv]|lia|unfold cPivot, cPart in *; lia|exact Hrd|].
  cbv beta. cbn [setval dom rd val md seen]. intros k n2 v1 [-> Hcut] _ Hn2.
  assert (Hk : 1 <= k <= len s - 1) by apply Hcut.
  apply wp_bind. eapply wp_rapply with (n1 := O) (D1 := O)
    (Post := fun '(aq, ar) v' => isSplit s k aq ar /\ v' = val g) (R1 := empty);
    [exact Hlive|apply swp_split; [lia|auto]|lia|lia|intros ? []|].
  intros [aq ar] n3 v' [Hsp ->] _ Hn3. cbn [setval dom rd val md seen].
  destruct (isSplit_reg s k aq ar Hk Hsp) as (Raq & Rar & Rdis & Haq & Har & Hsum & Hle & Hoff).
  assert (Hcq := calm_sub kd ok s aq (val g) Raq Hc). assert (Hca := calm_sub kd ok s ar (val g) Rar Hc).
  assert (Lq := log2_half (len aq) (len s) Haq ltac:(lia)).
  assert (La : Z.log2 (len ar) <= Z.log2 (len s)) by (apply Z.log2_le_mono; lia).
  assert (Lq0 := Z.log2_nonneg (len aq)). assert (La0 := Z.log2_nonneg (len ar)).
  assert (Cj : cC (len aq) + cC (len ar) + 100 * len s <= cC (len s)).
  { apply cCalm_join; try lia. destruct Hcut as [_ H2]. destruct Hsp as [H3 H4]. specialize (H2 eq_refl). lia. }
  assert (Cq0 := cCalm_low bal (len aq) Haq). assert (Ca0 := cCalm_low bal (len ar) Har).
  assert (Hn3' : cC (len aq) + cC (len ar) + 15 <= Z.of_nat n3) by (unfold cPivot, cPart in *; lia).
  clear Hn1 Hn2 Hn3 n1 n2. rename n3 into n.
  assert (Hoff1 : reg aq (off aq)) by (unfold reg; lia).
  assert (Hoff2 : reg ar (off ar)) by (unfold reg; lia).
  assert (Rdis' : forall i, reg ar i -> ~ reg aq i) by (intros i H1 H2; exact (Rdis i H2 H1)).
  set (v1 := val g).
  (* continuing with the longer range after the shorter one *)
  assert (Hgo : forall n g1 a1 g2, sameact a a1 -> (forall i, dom g1 i <-> dom g i) -> (forall i, rd g1 i <-> rd g i) ->
    val g1 = v1 -> delegated (reg aq) any g1 a1 g2 ->
    cC (len ar) + 1 <= Z.of_nat n -> maxRec < len ar ->
    wp (Z.to_nat (Z.log2 (len s) + 1))
      (fun _ _ g' => delegated (reg s) any g a g') n (Loop ar (longBody kd tn true)) g2).
  { intros m g1 a1 g2 Hsa Ed Er Ev Hdel Hm Hbig.
    assert (Hdel0 := Hdel).
    destruct Hdel as (O1 & a2 & Em & Ea & Hi & HO & HD & HR & HV & HP).
    assert (E12 : forall i, reg ar i -> val g2 i = v1 i).
    { intros i Hi2. rewrite HV, Ev; [reflexivity|]. auto. }
    eapply wp_apply; [apply (IH (len ar)) with (a := a2); [lia|lia|lia|lia| |exact Em|exact Hi| | |lia]
                      |lia|lia|].
    { eapply calm_ext; [exact E12|exact Hca]. }
    { intros i Hr. apply HD. rewrite Ed. split; [auto|]. intro Ho. apply HO in Ho. exact (Rdis i Ho Hr). }
    { intros i Hr. apply HR. rewrite Er. split; [auto|]. intro Ho. apply HO in Ho. exact (Rdis i Ho Hr). }
    cbv beta. intros _ n4 g3 Hdel3 Hn4.
    eapply (delegated_seq (reg s) (reg aq) (reg ar)) with (S1 := any) (S2 := any);
      [exact Hsa|exact Ed|exact Er|intros i Hi2; rewrite Ev; reflexivity
      |exact Raq|exact Rar|exact Rdis|intros; exact I|intros; exact I|exact Hdel0|].
    intros a3 Ha3. rewrite Em in Ha3. injection Ha3 as <-. exact Hdel3. }
  destruct (Z.leb_spec (len aq) maxRec) as [Cc|Cc].
  - apply wp_bind. eapply wp_rapply;
      [exact Hlive|apply (swp_small_calm aq v1); [lia|lia|exact Hcq]
      |lia|lia|intros; apply Hrd; auto|].
    cbv beta. cbn [setval dom rd val md seen]. intros _ n3 v2 -> _ Hn3.
    assert (Hdel : delegated (reg aq) any (setval g v1) a (setval (setval g v1) v1)).
    { apply delegated_local; [exact Hmd|exact Hidle|reflexivity|intros; exact I]. }
    change (setval (setval g v1) v1) with (setval g v1) in Hdel.
    destruct (Z.ltb_spec maxRec (len ar)) as [Cr|Cr].
    + apply wp_ret. apply (Hgo n3 (setval g v1) a); [split; reflexivity|reflexivity|reflexivity|reflexivity
        |exact Hdel|lia|exact Cr].
    + replace (Z.to_nat (Z.log2 (len s) + 1)) with (S (Z.to_nat (Z.log2 (len s)))) by lia.
      apply wp_call; [lia|exact Hlive|]. cbn [Typed.body].
      eapply wp_rapply; [exact Hlive|apply (swp_short_calm ar v1); [lia|lia|exact Hca]
                        |lia|lia|intros; apply Hrd; auto|].
      cbv beta. cbn [setval dom rd val md seen]. intros _ n4 v3 -> _ Hn4. split; [lia|]. apply wp_ret.
      sv. apply (delegated_local (reg s)); [exact Hmd|exact Hidle|reflexivity|intros; exact I].
  - apply wp_bind. unfold gorFull. apply wp_loadmax; [lia|exact Hlive|]. intros mg Hmg.
    eapply wp_loadgor; [lia|exact Hmd|apply Hidle|apply Hidle|]. intros ng.
    cbn [setval setseen setmd dom rd val md seen]. apply wp_ret.
    set (a1 := settok a (ng <? mg)).
    assert (Hsa1 : sameact a a1) by (split; reflexivity).
    assert (Hidle1 : idle a1) by exact Hidle.
    destruct (Z.leb_spec mg ng) as [Cf|Cf].
    + replace (Z.to_nat (Z.log2 (len s) + 1)) with (S (Z.to_nat (Z.log2 (len s)))) by lia.
      apply wp_call; [lia|exact I|]. cbn [Typed.body]. rewrite long_unfold.
      eapply wp_apply; [apply (IH (len aq)) with (a := a1); [lia|lia|lia|lia|exact Hcq|reflexivity|exact Hidle1| | |lia]
                        |lia|lia|].
      { intros i Hr. apply Hdom. auto. }
      { intros i Hr. apply Hrd. auto. }
      cbv beta. cbn [setval setseen setmd dom rd val md seen]. intros _ n4 g2 Hdel Hn4. split; [lia|]. apply wp_ret.
      replace (S (Z.to_nat (Z.log2 (len s)))) with (Z.to_nat (Z.log2 (len s) + 1)) by lia.
      eapply Hgo; [exact Hsa1| | | |exact Hdel|lia|lia]; [reflexivity|reflexivity|reflexivity].
    + eapply wp_addinc; [lia|reflexivity|apply Hidle1| |apply Hidle1| |].
      { cbn. destruct (Z.ltb_spec ng mg); [reflexivity|lia]. }
      { apply (twice_of kd tn HIns HRec aq ar); [lia|lia|intros i Hi; apply Hdom; auto|intros i Hi; apply Hdom; auto|exact Rdis]. }
      intros z. eapply wp_forkcredit with (d1 := reg ar) (P1 := any)
        (P2 := fun u => any u -> a_P a1 u)
        (n1 := Z.to_nat (cC (len ar) + 4)) (n2 := Z.to_nat (cC (len aq)));
        [reflexivity|reflexivity|apply Hidle1| | | | |lia| | ].
      { intros i Hr. apply Hdom. auto. }
      { apply (many_of kd tn HIns HRec ar); [lia|auto]. }
      { apply (many_of kd tn HIns HRec aq); [lia|]. intros i Hi. split; [apply Hdom; auto|]. intro Ha. exact (Rdis i Hi Ha). }
      { cbn. auto. }
      * (* the new goroutine *)
        constructor. cbn [Typed.body]. unfold gLong.
        apply wp_calln; [lia|lia|exact I|]. cbn [Typed.body]. rewrite long_unfold.
        eapply wp_apply; [apply (IH (len ar)) with (a := Act None any false false None);
          [lia|lia|lia|lia|exact Hca|reflexivity|split; reflexivity| | |lia]|lia|lia|].
        { auto. } { auto. }
        cbv beta. cbn [setval setseen setmd dom rd val md seen].
        intros _ n4 g2 (O1 & a2 & Em & Ea & Hi & HO & HD & HR & HV & HP) Hn4. split; [lia|].
        cbn in Ea, HD, HR, HV, HP.
        eapply wp_adddec; [lia|exact Em|apply Hi|apply Hi| |].
        { intros w Hw. apply HP; [|intros; exact I].
          intros i Hr Ho. apply Hw. apply HR. auto. }
        intros z' Hz'. unfold signed_off. rewrite Ea. destruct (Z.eqb_spec z' 0).
        -- apply wp_sendlast; [lia|reflexivity|]. apply wp_ret. reflexivity.
        -- apply wp_ret. reflexivity.
      * (* going on with the shorter range *)
        apply wp_ret. cbn [setval setseen setmd dom rd val md seen].
        set (a2 := forked (setcredit a1) (fun u => any u -> a_P a1 u)).
        eapply wp_apply; [apply (IH (len aq)) with (a := a2); [lia|lia|lia|lia|exact Hcq|reflexivity|split; [reflexivity|apply Hidle1]| | |lia]
                        |lia|lia|].
        { cbn. intros i Hr. split; auto. }
        { cbn. intros i Hr. split; auto. }
        cbn [val]. intros _ n4 g3 Hdel Hn4.
        eapply (delegated_fork (reg s) (reg aq) (reg ar)) with (S1 := any) (S2 := any)
          (g1 := Gst (dom g) (rd g) v1 (MAct (setcredit a1)) mg) (a1 := setcredit a1);
          [split; reflexivity|reflexivity|reflexivity|reflexivity|exact Raq|exact Rar|exact Rdis
          |apply reg_dec|intros; exact I|exact Hdel].
Qed.

Lemma wp_long_calm s g a :
  maxRec < len s -> len s < 2 * wq -> calm s (val g) ->
  md g = MAct a -> idle a ->
  (forall i, reg s i -> dom g i) -> (forall i, reg s i -> rd g i) ->
  (Z.to_nat (Z.log2 (len s) + 2) <= Dm)%nat ->
  wp (Z.to_nat (Z.log2 (len s) + 1))
    (fun _ _ g' => delegated (reg s) any g a g')
    (Z.to_nat (cC (len s))) (long kd tn s true) g.
Proof. intros. rewrite long_unfold. eapply wp_long_calm_gen; [apply Z.le_refl|eassumption..]. Qed.

Lemma wpT_gLong_calm s v :
  maxRec < len s -> len s < 2 * wq -> calm s v ->
  (Z.to_nat (Z.log2 (len s) + 2) <= Dm)%nat ->
  W (Z.to_nat (cC (len s) + 4)) (body (PGLong s))
    (Gst (reg s) (reg s) v (MAct (Act None any false false None)) 0).
Proof.
  intros Hs Hb Hc HDm. assert (C1 := cCpos (len s) ltac:(lia)). assert (L0 := Z.log2_nonneg (len s)).
  constructor. cbn [Typed.body]. unfold gLong.
  apply wp_calln; [lia|lia|exact I|]. cbn [Typed.body].
  eapply wp_apply; [apply (wp_long_calm s) with (a := Act None any false false None);
    [exact Hs|exact Hb|exact Hc|reflexivity|split; reflexivity|auto|auto|lia]|lia|lia|].
  cbv beta. cbn [setval setseen setmd dom rd val md seen].
  intros _ n4 g2 (O1 & a2 & Em & Ea & Hi & HO & HD & HR & HV & HP) Hn4. split; [lia|].
  cbn in Ea, HD, HR, HV, HP.
  eapply wp_adddec; [lia|exact Em|apply Hi|apply Hi| |].
  { intros w Hw. apply HP; [|intros; exact I]. intros i Hr Ho. apply Hw. apply HR. auto. }
  intros z' Hz'. unfold signed_off. rewrite Ea. destruct (Z.eqb_spec z' 0).
  - apply wp_sendlast; [lia|reflexivity|]. apply wp_ret. reflexivity.
  - apply wp_ret. reflexivity.
Qed.

End Calm.
