(** * partCon and Sort of sortyLsw.go *)

From Coq Require Import List ZArith Lia Bool Permutation.
From Verif Require Import Lang SeqLogic Yields ConcLogic Base Scalar Typed SeqOps ScalarFacts TypedPart
  TypedPivot TypedShort ConcSort TypedLong TypedSort Spec Lsw LswSeq LswPart LswLong.
Import ListNotations.
Open Scope Z_scope.

Local Arguments Z.mul : simpl never.
Local Arguments Z.add : simpl never.
Local Arguments Z.sub : simpl never.
Local Arguments Z.pow : simpl never.

Lemma permR_inner {T} a l h b (v w : Z -> T) :
  a <= l + 1 -> l < h -> h <= b + 1 ->
  permL (cells2 a l h b) v w -> permR (l + 1) h v w -> permR a (b + 1) v w.
Proof.
  intros H1 H2 H3 P1 P2. unfold permR.
  apply (permL_perm (cells2 a l h b ++ zrange (l + 1) h)); [|apply permL_app; assumption].
  unfold cells2.
  rewrite <- (zrange_app a (l + 1) (b + 1)), <- (zrange_app (l + 1) h (b + 1)) by lia.
  rewrite <- app_assoc. apply Permutation_app_head. apply Permutation_app_comm.
Qed.

Section Sort.
Context {Wd : word}.
Context {T : Type}.
Variables lt lq : T -> T -> bool.
Hypothesis Hlt : consistent lt lq.
Variable cap : Z.
Variable tn : tuning.
Variable meanI : Z -> Z -> Z.
Hypothesis HmeanI : meanOk meanI.
Hypothesis HM : meanEven meanI.

Notation maxIns := (maxLenInsFC tn).
Notation maxRec := (maxLenRecFC tn).
Hypothesis HIns : 9 <= maxIns.
Hypothesis HRec : 2 * maxIns < maxRec.
Hypothesis HRec2 : maxRec < wq - 1.

Notation body := (lswBody lt cap tn meanI).
Notation swp := (swp body).
Notation kd := (lkind lq).
Notation sortedP := (sortedP kd).
Notation sortedX := (sortedX kd).
Notation parted := (parted kd okAll).
Let LW : laws kd okAll := lkind_laws lq (proj1 (proj2 Hlt)).

Variable Dm : nat.
Notation G := (lswGrain tn).
Notation W := (wpT (Gr := G) body Dm).
Notation wp := (wp (Gr := G) body W).

Lemma parted_gap lo hi c v0 pv v1 l v2 :
  1 <= c -> pivoted lq lo hi c v0 pv v1 -> lo + 1 <= l <= hi ->
  permR (lo + 1) hi v1 v2 -> v2 lo = v1 lo -> v2 hi = v1 hi ->
  (forall i, lo + 1 <= i < l -> lq (v1 pv) (v2 i) = false) ->
  (forall i, l <= i <= hi - 1 -> lq (v2 i) (v1 pv) = false) ->
  parted (rng lo hi) (l - lo) v0 v2.
Proof.
  intros Hc (Hp & Hpv & EL & EH) Hk Hp2 Elo Ehi HL HH.
  split; [simpl; lia|]. simpl. replace (lo + (hi - lo + 1)) with (hi + 1) by lia. split.
  - eapply permR_trans; [exact Hp|].
    apply (permR_widen (lo + 1) hi); [lia|lia|lia|exact Hp2|].
    intros i Hi. assert (E : i = lo \/ i = hi) by lia. destruct E; subst i; auto.
  - exists (v1 pv). split; [exact I|]. unfold Lo, Hi; simpl. split; intros i Hi; apply negb_true_iff.
    + destruct (Z.eq_dec (lo + i) lo) as [E|E].
      * rewrite E, Elo. exact EL.
      * apply HL. lia.
    + destruct (Z.eq_dec (lo + i) hi) as [E|E].
      * rewrite E, Ehi. exact EH.
      * apply HH. lia.
Qed.

Lemma onePost2_ext a b p v0 k v w :
  (forall i, rdOne a b p i -> w i = v i) -> onePost2 lq a b p v0 k v -> onePost2 lq a b p v0 k w.
Proof.
  intros E (H1 & H2 & H3 & H4 & H5).
  assert (E' : forall i, a <= i <= b -> w i = v i) by (intros; apply E; left; lia).
  split; [exact H1|]. split.
  { apply permR_seg. rewrite (seg_ext w v) by (intros; apply E'; lia). apply permR_seg. exact H2. }
  split; [rewrite E by (right; reflexivity); exact H3|].
  split; intros i Hi; rewrite E' by lia; auto.
Qed.

(** What partCon computes: the same steps, one goroutine after the other. *)
Definition lpartSeq (lo hi : Z) : cmd lproc T Z :=
  (pv <- lswPivot lt cap meanI lo hi (nsConc - 1) ;;
   let lo := lo + 1 in
   let hi := hi - 1 in
   let l := meanI lo pv in
   let h := meanI pv hi in
   k <- lswPartOne lt cap (l + 1) pv (h - 1) ;;
   r <- lswPartTwo lt cap lo l pv h hi ;;
   if r <? pv then lswGapLow lt cap lo r k pv else lswGapHigh lt cap hi r k pv)%cmd.

Definition cPC2 (n : Z) : Z := 49 * n + 720.

Lemma wp_lswPartCon (Gr : grain) {Th : thawed Gr} lo hi g a D : 21 <= wq ->
  14 <= hi - lo + 1 -> twice (dom g) -> 0 <= lo -> hi < cap -> 11 * hi + 29 < 20 * wq ->
  md g = MAct a -> a_main a <> None -> a_tok a = true -> idle a ->
  (forall i, reg (rng lo hi) i -> dom g i) -> (forall i, reg (rng lo hi) i -> rd g i) ->
  ConcLogic.wp body (wpT body Dm) D (fun l _ g' => exists a', md g' = MAct a' /\ a_main a' = a_main a /\ a_P a' = a_P a /\
          a_tok a' = true /\ idle a' /\
          (forall i, dom g' i <-> dom g i) /\ (forall i, rd g' i <-> rd g i) /\
          (forall i, rd g i -> ~ reg (rng lo hi) i -> val g' i = val g i) /\
          parted (rng lo hi) (l - lo) (val g) (val g') /\
          outs body (lpartSeq lo hi) (reg (rng lo hi)) (val g) l (val g'))
    (Z.to_nat (cPC2 (hi - lo + 1))) (lswPartCon lt cap meanI lo hi) g.
Proof.
  intros Hwq Hs Htw H0 Hcap Hb Hmd Hmain Htok Hidle Hdom Hrd.
  clear HIns HRec HRec2.
  assert (Hlive : live g) by (unfold live; rewrite Hmd; exact I).
  set (s := rng lo hi) in *.
  assert (Rs : forall i, reg s i <-> lo <= i <= hi) by (intro i; unfold reg, s, rng; simpl; lia).
  unfold lswPartCon. apply wp_bind. change (nsConc - 1) with (2 * 3 + 1) at 1. eapply wp_sapply;
    [typeclasses eauto|exact Hlive|apply swp_exactly, (swp_pivot2 lt lq Hlt cap body meanI lo hi 3 (val g) 0 HM); lia
    |lia|unfold cPivot2, cPC2; lia|exact Hrd|exact Hdom|].
  cbv beta. intros pv n1 v1 [Hpiv Ypv] Hf1 Hn1. fold s in Hf1, Ypv.
  change (2 * 3 + 1) with (nsConc - 1) in Ypv.
  assert (Hpv : lo + 3 <= pv <= hi - 3) by apply Hpiv.
  cbv zeta. set (l := meanI (lo + 1) pv). set (h := meanI pv (hi - 1)).
  assert (Hl : lo + 1 <= l < pv) by (unfold l; apply HmeanI; lia).
  assert (Hh : pv <= h < hi - 1) by (unfold h; apply HmeanI; lia).
  assert (HY : forall k w, yields body (reg s) (k0 <- lswPartOne lt cap (l + 1) pv (h - 1) ;;
     r <- lswPartTwo lt cap (lo + 1) l pv h (hi - 1) ;;
     if r <? pv then lswGapLow lt cap (lo + 1) r k0 pv else lswGapHigh lt cap (hi - 1) r k0 pv)%cmd v1 k w ->
    yields body (reg s) (lpartSeq lo hi) (val g) k w).
  { intros k w Hy. unfold lpartSeq. eapply yields_bind; [exact Ypv|exact Hy]. }
  clearbody l h.
  set (R2 := rdOne (l + 1) (h - 1) pv). set (D2 := wrOne (l + 1) (h - 1) pv).
  assert (R2s : forall i, R2 i -> reg s i) by (intros i; rewrite Rs; unfold R2, rdOne; lia).
  assert (D2R2 : forall i, D2 i -> R2 i) by (intros i; unfold R2, D2, rdOne, wrOne; lia).
  assert (R2dec : forall i, R2 i \/ ~ R2 i) by (intro i; unfold R2, rdOne; lia).
  eapply wp_forkpart with (dj := R2) (d2 := D2) (r2 := R2)
    (post := fun k w => onePost2 lq (l + 1) (h - 1) pv v1 k w /\ outs body (lswPartOne lt cap (l + 1) pv (h - 1)) R2 v1 k w)
    (n1 := Z.to_nat (cPartL (hi - lo + 1) + 1)) (n2 := Z.to_nat (cPartL (hi - lo + 1) + cGapL (hi - lo + 1) + 2));
    [exact Hmd|exact Hmain|apply Hidle|exact Htok|apply Hidle
    |cbn; intros; apply Hdom; auto|exact D2R2|auto| | | | | ].
  { exact Htw. }
  { exact R2dec. }
  { unfold cPartL, cGapL, cPivot2, cPC2 in *. lia. }
  { (* the partner *)
    constructor. cbn [lswBody]. unfold lswGPartOne. apply wp_bind.
    eapply wp_sapply; [typeclasses eauto|exact I|eapply (swp_exactlyW body _ _ _ _ (fun k w => onePost2 lq (l + 1) (h - 1) pv v1 k w)); [apply (swp_lswPartOne lt lq Hlt cap body (l + 1) (h - 1) pv); lia|exact D2R2]
      |apply Nat.le_refl|unfold cPartL; lia|auto|auto|].
    cbv beta. cbn [setval dom rd val md seen]. intros k n3 v2 [Hk Yk] _ Hn3.
    eapply wp_sendpart; [unfold cPartL in *; lia|reflexivity| |apply wp_ret; reflexivity].
    intros w Hw. cbn [j_post]. split; [eapply onePost2_ext; [|exact Hk]; exact Hw|].
    exists v2. split; [exact Yk|exact Hw]. }
  (* the caller: outer parts *)
  apply wp_bind. cbn [setval dom rd val md seen].
  eapply wp_sapply;
    [typeclasses eauto|exact I|eapply (swp_exactlyW body _ _ _ _ (fun r w => twoPost2 lq (lo + 1) l h (hi - 1) pv v1 r w)); [apply (swp_lswPartTwo lt lq Hlt cap body (lo + 1) l h (hi - 1) pv); lia|intros i; unfold wrTwo, rdTwo; tauto]
    |apply Nat.le_refl|unfold cPartL, cGapL; lia| | |].
  { cbn. intros i Hi. unfold minus. split; [apply Hrd; rewrite Rs; unfold rdTwo, outer in Hi; lia|].
    unfold D2, wrOne, rdTwo, outer in *. lia. }
  { cbn. intros i Hi. unfold minus. split; [apply Hdom; rewrite Rs; unfold wrTwo, outer in Hi; lia|].
    unfold R2, rdOne, wrTwo, outer in *. lia. }
  cbv beta. cbn [setval dom rd val md seen]. intros r n3 v3 [Htwo Yr] Hf3 Hn3.
  eapply wp_recvjoin; [unfold cPartL, cGapL in *; lia|reflexivity|reflexivity|].
  cbn [setval setjoin dom rd val md seen j_post j_D]. intros km w Hw [Hone (wm & Ym & Um)].
  assert (Ew : forall i, rd g i -> ~ D2 i -> w i = v3 i).
  { intros i Hi Hn. apply Hw. cbn. split; assumption. }
  assert (Eout : forall i, outer (lo + 1) l h (hi - 1) i -> w i = v3 i).
  { intros i Hi. apply Ew; [apply Hrd; rewrite Rs; unfold outer in Hi; lia|unfold D2, wrOne, outer in *; lia]. }
  destruct Hone as (Hkm & P1 & E1 & L1 & H1).
  destruct Htwo as (P2 & E2 & Htwo). set (x := v1 pv) in *.
  assert (HY2 : forall k v', yields body (fun i => lo + 1 <= i <= hi - 1)
      (if r <? pv then lswGapLow lt cap (lo + 1) r km pv else lswGapHigh lt cap (hi - 1) r km pv) w k v' ->
    outs body (lpartSeq lo hi) (reg s) (val g) k v').
  { intros k v' Yg.
    assert (Em := yields_frame _ _ _ _ _ _ Ym).
    assert (Ep : wm pv = v1 pv) by (rewrite <- Um by (right; reflexivity); exact E1).
    assert (En : forall i, rdTwo (lo + 1) l h (hi - 1) pv i -> wm i = v1 i).
    { intros i Hi. destruct (Z.eq_dec i pv) as [->|Hn]; [exact Ep|]. apply Em.
      unfold R2, rdOne, rdTwo, outer in *. lia. }
    destruct (yields_ext body _ _ _ _ _ wm Yr En) as (w3 & Y3 & E3).
    assert (F3 := yields_frame _ _ _ _ _ _ Y3).
    assert (Ex : forall i, reg s i -> w3 i = w i).
    { intros i Hi. destruct (Z.eq_dec i pv) as [->|Hn].
      - rewrite E3 by exact Ep. rewrite Ew; [reflexivity|apply Hrd; exact Hi|unfold D2, wrOne; lia].
      - destruct (R2dec i) as [Hm|Hm].
        + rewrite F3, Um; [reflexivity|exact Hm|]. unfold R2, rdOne, rdTwo, outer in *. lia.
        + rewrite E3 by (apply Em; exact Hm). symmetry. apply Ew; [apply Hrd; exact Hi|auto]. }
    assert (Ri : forall i, lo + 1 <= i <= hi - 1 -> reg s i) by (intros i; rewrite Rs; lia).
    destruct (yields_ext body _ _ _ _ _ w3 Yg ltac:(intros i Hi; auto)) as (w4 & Y4 & E4).
    exists w4. split; [|intros i Hi; symmetry; apply E4; auto].
    apply HY. eapply yields_bind; [eapply yields_mono; [exact Ym|exact R2s]|].
    eapply yields_bind; [eapply yields_mono; [exact Y3|intros i Hi; apply Rs; unfold rdTwo, outer in Hi; lia]|].
    eapply yields_mono; [exact Y4|exact Ri]. }
  assert (Hperm : permR (lo + 1) hi v1 w).
  { replace hi with (hi - 1 + 1) by lia. apply (permR_inner (lo + 1) l h (hi - 1)); [lia|lia|lia| |].
    - eapply permL_trans; [exact P2|]. apply permL_ext. intros i Hi. symmetry. apply Eout.
      apply cells2_In in Hi. exact Hi.
    - replace h with (h - 1 + 1) by lia. exact P1. }
  set (a1 := setjoin a None).
  set (g3 := Gst (union (minus (dom g) R2) R2) (union (minus (rd g) D2) R2) w
               (MAct a1) (seen g)).
  assert (Hg3d : forall i, dom g3 i <-> dom g i).
  { intro i. cbn. unfold union, minus. destruct (R2dec i) as [Hm|Hm]; [|tauto].
    generalize (Hdom i (R2s i Hm)). tauto. }
  assert (Hg3r : forall i, rd g3 i <-> rd g i).
  { intro i. cbn. unfold union, minus. destruct (R2dec i) as [Hm|Hm].
    - generalize (Hrd i (R2s i Hm)). tauto.
    - split; [tauto|]. intro Hi. left. split; [exact Hi|]. auto. }
  assert (Hn4 : (Z.to_nat (cGapL (hi - 1 - (lo + 1) + 1)) <= n3 - 1)%nat) by (unfold cPartL, cGapL in *; lia).
  assert (Fin : forall k v', gapPost lq (lo + 1) (hi - 1) x w k v' -> outs body (lpartSeq lo hi) (reg s) (val g) k v' ->
    (forall i, ~ (lo + 1 <= i <= hi - 1) -> v' i = w i) ->
    exists a', md (setval g3 v') = MAct a' /\ a_main a' = a_main a /\ a_P a' = a_P a /\
          a_tok a' = true /\ idle a' /\
          (forall i, dom (setval g3 v') i <-> dom g i) /\ (forall i, rd (setval g3 v') i <-> rd g i) /\
          (forall i, rd g i -> ~ reg s i -> val (setval g3 v') i = val g i) /\
          parted s (k - lo) (val g) (val (setval g3 v')) /\
          outs body (lpartSeq lo hi) (reg s) (val g) k (val (setval g3 v'))).
  { intros k v' (Hk & Hp & HkL & HkH) Hout Hf. exists a1. split; [reflexivity|]. split; [reflexivity|]. split; [reflexivity|].
    split; [exact Htok|]. split; [split; [apply Hidle|reflexivity]|]. split; [exact Hg3d|].
    split; [exact Hg3r|].
    assert (EE : forall i, rd g i -> ~ (lo + 1 <= i <= hi - 1) -> v' i = v1 i).
    { intros i Hi Hn. rewrite Hf by lia. rewrite Ew; [|exact Hi|unfold D2, wrOne; lia].
      apply Hf3. unfold wrTwo, outer. lia. }
    split.
    - intros i Hi Hn. cbn. rewrite EE; [apply Hf1; exact Hn|exact Hi|]. rewrite Rs in Hn. lia.
    - split; [|exact Hout]. cbn [setval val]. eapply (parted_gap lo hi 3 (val g) pv v1 k v'); [lia|exact Hpiv|lia| | | |exact HkL|exact HkH].
      + eapply permR_trans; [exact Hperm|]. replace hi with (hi - 1 + 1) by lia. exact Hp.
      + apply EE; [apply Hrd; rewrite Rs; lia|lia].
      + apply EE; [apply Hrd; rewrite Rs; lia|lia]. }
  assert (Rgap : forall i, lo + 1 <= i <= hi - 1 -> reg s i) by (intros i; rewrite Rs; lia).
  assert (Ewpv : w pv = x). { rewrite Ew; [exact E2|apply Hrd; rewrite Rs; lia|unfold D2, wrOne; lia]. }
  destruct Htwo as [(Hr & L2 & H2)|(Hr & L2 & H2)].
  - destruct (Z.ltb_spec r pv) as [_|]; [|lia].
    eapply wp_sapply with (g := g3);
      [typeclasses eauto|exact I|apply swp_exactly, (swp_lswGapLow lt lq Hlt cap body (lo + 1) (hi - 1) ltac:(lia) ltac:(lia) w r km pv x 0);
        [lia|lia|lia|lia|lia|exact Ewpv| |]
      |apply Nat.le_0_l|exact Hn4|intros i Hi; apply Hg3r; auto|intros i Hi; apply Hg3d; auto|].
    { intros i Hi. destruct (Z.le_gt_cases i l); [|apply L1; lia].
      rewrite Eout by (unfold outer; lia). apply L2. lia. }
    { intros i Hi. destruct (Z.lt_ge_cases i h); [apply H1; lia|].
      rewrite Eout by (unfold outer; lia). apply H2. lia. }
    cbv beta. cbn [g3 val]. intros k m v' [Hg Yg] Hf Hm. apply Fin; [exact Hg|apply HY2; destruct (Z.ltb_spec r pv); [exact Yg|lia]|exact Hf].
  - destruct (Z.ltb_spec r pv) as [|_]; [lia|].
    eapply wp_sapply with (g := g3);
      [typeclasses eauto|exact I|apply swp_exactly, (swp_lswGapHigh lt lq Hlt cap body (lo + 1) (hi - 1) ltac:(lia) ltac:(lia) w r km pv x 0);
        [lia|lia|lia|lia|exact Ewpv| |]
      |apply Nat.le_0_l|exact Hn4|intros i Hi; apply Hg3r; auto|intros i Hi; apply Hg3d; auto|].
    { intros i Hi. destruct (Z.le_gt_cases i l); [|apply L1; lia].
      rewrite Eout by (unfold outer; lia). apply L2. lia. }
    { intros i Hi. destruct (Z.lt_ge_cases i h); [apply H1; lia|].
      rewrite Eout by (unfold outer; lia). apply H2. lia. }
    cbv beta. cbn [g3 val]. intros k m v' [Hg Yg] Hf Hm. apply Fin; [exact Hg|apply HY2; destruct (Z.ltb_spec r pv); [lia|exact Yg]|exact Hf].
Qed.

(** ** The concurrent part of Sort *)

Lemma lswConc_plain : lswConc tn = 2 * maxRec.
Proof. unfold lswConc. apply iw_small. lia. Qed.

Definition lmainBody : Z * Z -> cmd lproc T (Z * Z + Z * Z) :=
  (fun '(lo, hi) =>
    l <- lswPartCon lt cap meanI lo hi ;;
    let '(l, h, lo, hi, n, no) := lswSplit lo hi l in
    (if maxRec <=? n then AddGor 1 (fun _ => Fork (LGLong l h) (Ret tt))
     else if maxIns <=? n then Call (LShort l h) (Ret tt)
     else lswInsertion lt cap l h) ;;;
    if no <=? lswConc tn then done (lo, hi)
    else full <- lswGorFull ;; if full : bool then done (lo, hi) else goto (lo, hi))%cmd.

Lemma lswSortConc_unfold n : lswSortConc lt cap tn meanI n =
  MakeSv (Bind (Loop (0, n) lmainBody) (fun '(lo, hi) => Call (LLong lo hi true) (
    AddGor (2 ^ 64 - 1) (fun n => if n =? 0 then Ret tt else Recv (fun _ => Ret tt))))).
Proof. reflexivity. Qed.

(** ** The result, exactly *)

Definition lseqCmd (lo hi : Z) : cmd lproc T unit :=
  if maxRec <=? hi - lo then lswLong lt cap tn meanI lo hi false else lsmallCmd lt cap tn lo hi.

Fixpoint lmainOut (r : nat) (lo hi : Z) (v u : Z -> T) : Prop :=
  match r with
  | O => outs body (lseqCmd lo hi) (reg (rng lo hi)) v tt u
  | S r => exists l v1 l' h' lo' hi', outs body (lpartSeq lo hi) (reg (rng lo hi)) v l v1 /\ lo + 1 <= l <= hi /\
      lswSplit lo hi l = (l', h', lo', hi', h' - l', hi' - lo') /\
      outs body (lseqCmd l' h') (reg (rng l' h')) v1 tt u /\ lmainOut r lo' hi' v1 u
  end.

Lemma lswSplit_regs lo hi l l' h' lo' hi' : lo + 1 <= l <= hi ->
  lswSplit lo hi l = (l', h', lo', hi', h' - l', hi' - lo') ->
  (forall i, reg (rng l' h') i -> reg (rng lo hi) i) /\ (forall i, reg (rng lo' hi') i -> reg (rng lo hi) i) /\
  (forall i, reg (rng lo hi) i -> reg (rng l' h') i \/ reg (rng lo' hi') i).
Proof.
  intros Hl. unfold lswSplit. cbv zeta. destruct (Z.ltb_spec (l - 1 - lo) (hi - l)); intro E; injection E as <- <- <- <-;
    unfold reg, rng; cbn [off len]; repeat split; intros; lia.
Qed.

Lemma lmainOut_init r lo hi v v' u : (forall i, reg (rng lo hi) i -> v' i = v i) -> lmainOut r lo hi v u -> lmainOut r lo hi v' u.
Proof.
  destruct r as [|r]; cbn [lmainOut]; intros E H; [eapply outs_init; eassumption|].
  destruct H as (l & v1 & l' & h' & lo' & hi' & H1 & H2). exists l, v1, l', h', lo', hi'. split; [eapply outs_init; eassumption|exact H2].
Qed.

Lemma lmainOut_local r : forall lo hi v u u', (forall i, reg (rng lo hi) i -> u' i = u i) -> lmainOut r lo hi v u -> lmainOut r lo hi v u'.
Proof.
  induction r as [|r IH]; cbn [lmainOut]; intros lo hi v u u' E H; [eapply outs_local; eassumption|].
  destruct H as (l & v1 & l' & h' & lo' & hi' & H1 & H2 & H3 & H4 & H5). exists l, v1, l', h', lo', hi'.
  destruct (lswSplit_regs _ _ _ _ _ _ _ H2 H3) as (Rq & Ra & _).
  split; [exact H1|]. split; [exact H2|]. split; [exact H3|].
  split; [eapply outs_local; [|exact H4]; auto|]. eapply IH; [|exact H5]. auto.
Qed.

(** One result for each number of rounds. *)
Lemma lmainOut_fun r : forall lo hi v u u', lmainOut r lo hi v u -> lmainOut r lo hi v u' ->
  forall i, reg (rng lo hi) i -> u' i = u i.
Proof.
  induction r as [|r IH]; cbn [lmainOut]; intros lo hi v u u' H H'; [apply (outs_fun body _ _ _ _ _ _ _ H H')|].
  destruct H as (l & v1 & l' & h' & lo' & hi' & H1 & H2 & H3 & H4 & H5).
  destruct H' as (l2 & v2 & l2' & h2' & lo2' & hi2' & G1 & _ & G3 & G4 & G5).
  destruct (outs_fun body _ _ _ _ _ _ _ H1 G1) as [-> E].
  rewrite H3 in G3. injection G3 as <- <- <- <-.
  destruct (lswSplit_regs _ _ _ _ _ _ _ H2 H3) as (Rq & Ra & Rc).
  intros i Hi. destruct (Rc i Hi) as [Hq|Ha].
  - eapply (outs_fun body); [exact H4| |exact Hq]. eapply outs_init; [|exact G4]. intros j Hj. symmetry. auto.
  - eapply IH; [exact H5| |exact Ha]. eapply lmainOut_init; [|exact G5]. intros j Hj. symmetry. auto.
Qed.

Definition lmaxRounds (n : Z) : Z := Z.max 0 (n - (2 * maxRec + 1)).

Definition lsortedM (s : slice) (v u : Z -> T) : Prop :=
  sortedP s v u /\ exists r, Z.of_nat r <= lmaxRounds (len s) /\ lmainOut r (off s) (off s + len s - 1) v u.

Lemma lsortedM_rng lo hi v u : sortedP (rng lo hi) v u ->
  (exists r, Z.of_nat r <= lmaxRounds (hi - lo + 1) /\ lmainOut r lo hi v u) -> lsortedM (rng lo hi) v u.
Proof.
  intros H1 (r & H2 & H3). split; [exact H1|]. exists r. split; [exact H2|]. cbn [off len rng].
  replace (lo + (hi - lo + 1) - 1) with hi by lia. exact H3.
Qed.

Lemma lsortedM_inv lo hi v u : lsortedM (rng lo hi) v u -> sortedP (rng lo hi) v u /\
  exists r, Z.of_nat r <= lmaxRounds (hi - lo + 1) /\ lmainOut r lo hi v u.
Proof.
  intros (H1 & r & H2 & H3). split; [exact H1|]. exists r. split; [exact H2|]. cbn [off len rng] in H3.
  replace (lo + (hi - lo + 1) - 1) with hi in H3 by lia. exact H3.
Qed.

Lemma lsortedM_init lo hi v v' u :
  (forall i, reg (rng lo hi) i -> v' i = v i) -> lsortedM (rng lo hi) v u -> lsortedM (rng lo hi) v' u.
Proof.
  intros E H. apply lsortedM_inv in H. destruct H as (H1 & r & H2 & H3). apply lsortedM_rng; [eapply sortedP_init; eassumption|].
  exists r. split; [exact H2|eapply lmainOut_init; eassumption].
Qed.

Lemma lsortedL_M lo hi v u : maxRec < hi - lo + 1 -> lsortedL lt lq cap tn meanI lo hi v u -> lsortedM (rng lo hi) v u.
Proof.
  intros H [H1 H2]. apply lsortedM_rng; [exact H1|]. exists O. split; [unfold lmaxRounds; lia|].
  cbn [lmainOut]. unfold lseqCmd. destruct (Z.leb_spec maxRec (hi - lo)); [exact H2|lia].
Qed.

(** One more round. *)
Lemma lsortedM_join lo hi l l' h' lo' hi' v v1 u : 2 * (maxRec + 1) <= hi - lo + 1 -> parted (rng lo hi) (l - lo) v v1 ->
  lswSplit lo hi l = (l', h', lo', hi', h' - l', hi' - lo') -> isSplit (rng lo hi) (l - lo) (rng l' h') (rng lo' hi') ->
  outs body (lpartSeq lo hi) (reg (rng lo hi)) v l v1 ->
  sortedP (rng l' h') v1 u -> outs body (lseqCmd l' h') (reg (rng l' h')) v1 tt u -> lsortedM (rng lo' hi') v1 u ->
  lsortedM (rng lo hi) v u.
Proof.
  intros Hs Hpart E Hsp Hout Hp Ho H. apply lsortedM_inv in H. destruct H as (H1 & r & H2 & H3).
  destruct (isSplit_reg _ (l - lo) _ _ (proj1 Hpart) Hsp) as (Raq & Rar & Rdis & Haq & Har & Hsum & Hle & Hoff).
  apply lsortedM_rng; [eapply (sortedP_join kd okAll LW); [apply okOn_all|eassumption..]|]. exists (S r).
  assert (Hk := proj1 Hpart). cbn [rng len] in *.
  split; [unfold lmaxRounds in *; lia|]. exists l, v1, l', h', lo', hi'.
  split; [exact Hout|]. split; [lia|]. split; [exact E|]. split; [exact Ho|exact H3].
Qed.

Notation MInv := (MInv kd tn okAll lsortedM).

Definition MPost Pr lo hi (p : Z * Z) (m : nat) (g' : gst T) : Prop :=
  lo <= fst p /\ snd p <= hi /\ (exists a', MInv Pr (rng (fst p) (snd p)) g' a') /\
  cSort (snd p - fst p + 1) + 8 <= Z.of_nat m.

Lemma wp_lswMainLoop Pr : forall N lo hi g a,
  hi - lo + 1 <= N -> 2 * (maxRec + 1) <= hi - lo + 1 -> 0 <= lo -> hi < cap -> 11 * hi + 29 < 20 * wq ->
  MInv Pr (rng lo hi) g a -> a_tok a = true ->
  (Z.to_nat (Z.log2 (hi - lo + 1) + 2) <= Dm)%nat ->
  wp (Z.to_nat (Z.log2 (hi - lo + 1) + 2))
    (MPost Pr lo hi)
    (Z.to_nat (cSort (hi - lo + 1) + 8)) (Loop (lo, hi) lmainBody) g.
Proof.
  intro N. induction (Z.lt_wf 0 N) as [N _ IH]. intros lo hi g a HN Hs H0 Hcap Hb Hinv Htok HDm.
  set (s := rng lo hi) in *. assert (Es : len s = hi - lo + 1) by reflexivity.
  rewrite <- Es in *.
  destruct Hinv as (Hmd & Hmain & Hidle & Hdom & Hdr & Hok & Hlen & HP).
  assert (Hrd : forall i, reg s i -> rd g i) by (intros; apply Hdr; auto).
  assert (Hlive : live g) by (unfold live; rewrite Hmd; exact I).
  assert (C1 := cSort_pos (len s)).
  assert (Cm : 100 * 40 * len s <= cSort (len s)) by (unfold cSort; nia).
  apply wp_loop; [lia|]. unfold lmainBody at 1.
  apply wp_bind. eapply wp_apply;
    [apply (wp_lswPartCon G lo hi g a 0); [lia|lia|apply (ltwice_one tn HIns HRec s); [lia|exact Hdom]|lia|lia|lia|exact Hmd|congruence|exact Htok|exact Hidle|exact Hdom|exact Hrd]
    |lia|rewrite <- Es; unfold cPC2; lia|].
  cbv beta. rewrite <- Es. fold s. intros l n2 g1 (a1 & Hmd1 & Hmain1 & HP1 & Htok1 & Hidle1 & Hd1 & Hr1 & Hf1 & Hpart & Hout) Hn1.
  assert (Hlive1 : live g1) by (unfold live; rewrite Hmd1; exact I).
  assert (Hk : 1 <= l - lo <= len s - 1) by apply Hpart.
  destruct (lswSplit_ok lo hi l ltac:(lia)) as (l' & h' & lo' & hi' & E & Hsp & B1 & B2 & B3 & B4 & B5 & B6).
  assert (E' := E). rewrite E. clear E. set (k := l - lo) in *. fold s in Hsp.
  set (aq := rng l' h') in *. set (ar := rng lo' hi') in *.
  assert (Eq : len aq = h' - l' + 1) by reflexivity. assert (Ea : len ar = hi' - lo' + 1) by reflexivity.
  destruct (isSplit_reg s k aq ar Hk Hsp) as (Raq & Rar & Rdis & Haq & Har & Hsum & Hle & Hoff).
  set (v1 := val g1) in *.
  assert (Lq := log2_half (len aq) (len s) Haq ltac:(lia)).
  assert (La : Z.log2 (len ar) <= Z.log2 (len s)) by (apply Z.log2_le_mono; lia).
  assert (Lq0 := Z.log2_nonneg (len aq)). assert (La0 := Z.log2_nonneg (len ar)).
  assert (Cj := cSort_join2 (len aq) (len ar) (len s) (cPC2 (len s) + 100) Haq Har Hsum ltac:(unfold cPC2; lia)).
  assert (Cq0 := cSort_pos (len aq)). assert (Ca0 := cSort_pos (len ar)).
  assert (Hn2' : cSort (len aq) + cSort (len ar) + 30 <= Z.of_nat n2) by (unfold cPC2 in *; lia).
  clear Hn1. rename n2 into n.
  assert (Hoff1 : reg aq (off aq)) by (unfold reg; lia).
  assert (Hoff2 : reg ar (off ar)) by (unfold reg; lia).
  assert (HJ : forall u, sortedP aq v1 u -> outs body (lseqCmd l' h') (reg aq) v1 tt u -> lsortedM ar v1 u -> lsortedM s (val g) u).
  { intros u Hu1 Hu2 Hu3. eapply lsortedM_join; eassumption. }
  assert (Rdis' : forall i, reg ar i -> ~ reg aq i) by (intros i Hx1 Hx2; exact (Rdis i Hx2 Hx1)).
  assert (Hbig : maxRec < len ar) by lia.
  (* what follows once the shorter range is dealt with *)
  assert (Hgo : forall n g2 a2, MInv Pr ar g2 a2 -> cSort (len ar) + 12 <= Z.of_nat n ->
    wp (Z.to_nat (Z.log2 (len s) + 2))
      (fun r m g' => match r with
         | inl s' => wp (Z.to_nat (Z.log2 (len s) + 2))
             (MPost Pr lo hi) m (Loop s' lmainBody) g'
         | inr p => MPost Pr lo hi p m g'
         end) n
      (if hi' - lo' <=? lswConc tn then Ret (inr (lo', hi'))
       else Bind lswGorFull (fun full : bool => if full then Ret (inr (lo', hi')) else Ret (inl (lo', hi')))) g2).
  { intros m g2 a2 Hi2 Hm.
    rewrite lswConc_plain. destruct (Z.leb_spec (hi' - lo') (2 * maxRec)) as [Cs|Cs].
    { apply wp_ret. split; [cbn [fst snd]; lia|]. split; [cbn [fst snd]; lia|]. split; [exists a2; exact Hi2|cbn [fst snd]; rewrite <- Ea; lia]. }
    assert (Hi2' := Hi2). destruct Hi2' as (Hmd2 & Hmain2 & Hidle2 & Hdom2 & Hdr2 & Hok2 & Hlen2 & HP2).
    apply wp_bind. unfold lswGorFull. apply wp_loadmax; [lia|unfold live; rewrite Hmd2; exact I|]. intros mg Hmg.
    eapply wp_loadgor; [lia|exact Hmd2|apply Hidle2|apply Hidle2|]. intros ng.
    set (a3 := settok a2 (ng <? seen (setseen g2 mg))).
    set (g3 := setmd (setseen g2 mg) (MAct a3)).
    assert (Hi3 : MInv Pr ar g3 a3).
    { split; [reflexivity|]. split; [exact Hmain2|]. split; [exact Hidle2|]. split; [exact Hdom2|].
      split; [exact Hdr2|]. split; [exact Hok2|]. split; [exact Hlen2|exact HP2]. }
    apply wp_ret. destruct (Z.leb_spec mg ng) as [Cf|Cf].
    - apply wp_ret. split; [cbn [fst snd]; lia|]. split; [cbn [fst snd]; lia|]. split; [exists a3; exact Hi3|cbn [fst snd]; rewrite <- Ea; lia].
    - apply wp_ret. eapply wp_more;
        [apply (IH (len ar)) with (lo := lo') (hi := hi') (a := a3); [lia|lia|lia|lia|lia|lia|exact Hi3| |rewrite <- Ea; lia]
        |rewrite <- Ea; lia|rewrite <- Ea; lia|].
      + cbn. destruct (Z.ltb_spec ng mg); [reflexivity|lia].
      + cbv beta. intros [lo2 hi2] m' g' Hm' (Hl1 & Hl2 & Ha & Hc). cbn [fst snd] in *. split; [cbn; lia|]. split; [cbn; lia|]. split; [exact Ha|cbn [fst snd]; lia]. }
  apply wp_bind. destruct (Z.leb_spec maxRec (h' - l')) as [Cc|Cc].
  - (* a goroutine for the shorter range *)
    eapply wp_addinc; [lia|exact Hmd1|apply Hidle1|exact Htok1|apply Hidle1| |].
    { apply (ltwice_of tn HIns HRec aq ar); [lia|lia|intros i Hi; apply Hd1, Hdom; auto|intros i Hi; apply Hd1, Hdom; auto|exact Rdis]. }
    intros z. eapply wp_forkcredit with (d1 := reg aq) (P1 := lsortedL lt lq cap tn meanI l' h' v1)
        (P2 := fun u => lsortedL lt lq cap tn meanI l' h' v1 u -> a_P a1 u)
        (n1 := Z.to_nat (cSort (len aq) + 4)) (n2 := Z.to_nat (cSort (len ar) + 12));
        [reflexivity|reflexivity|apply Hidle1| | | | |lia| | ].
    { intros i Hr. apply Hd1, Hdom. auto. }
    { apply (lmany_of tn HIns HRec aq); [lia|auto]. }
    { apply (lmany_of tn HIns HRec ar); [lia|]. intros i Hi. split; [apply Hd1, Hdom; auto|]. intro Hi'. exact (Rdis i Hi' Hi). }
    { cbn. auto. }
    + rewrite Eq. apply (wpT_lswGLong lt lq Hlt cap tn meanI HM HIns HRec); [lia|lia|lia|lia|rewrite <- Eq; lia].
    + cbn [setmd dom rd val md seen]. apply wp_ret.
      apply (Hgo _ _ (forked (setcredit a1) (fun u => lsortedL lt lq cap tn meanI l' h' v1 u -> a_P a1 u))); [|lia].
      split; [reflexivity|]. split; [exact (eq_trans Hmain1 Hmain)|]. split; [split; [reflexivity|apply Hidle1]|].
      cbn [dom rd val]. split.
      { intros i Hr. split; [apply Hd1, Hdom; auto|auto]. }
      split; [intros i [Hx1 Hx2]; split; [apply Hr1, Hdr, Hd1; exact Hx1|exact Hx2]|].
      split; [apply okOn_all|]. split; [unfold TypedShort.maxRec; cbn [fc lkind]; rewrite ?Ea; lia|].
      cbn [forked a_P]. intros w Hw Hs1 [Hs2 Hs3]. rewrite HP1. apply HP.
      2:{ apply HJ; [exact Hs2| |exact Hs1]. unfold lseqCmd. destruct (Z.leb_spec maxRec (h' - l')); [exact Hs3|lia]. }
      intros i Hi Hn. rewrite Hw; [apply Hf1; [auto|exact Hn]|split; [apply Hd1; exact Hi|auto]|auto].
  - eapply wp_sapply; [typeclasses eauto|exact Hlive1|apply swp_exactly, (swp_small2 (Wd := Wd) lt lq Hlt cap tn meanI HIns l' h' v1); lia
      |rewrite <- Eq; lia|rewrite <- Eq; lia|fold aq; intros; apply Hr1, Hrd; auto|fold aq; intros; apply Hd1, Hdom; auto|].
    cbv beta. rewrite <- Eq. fold aq. intros [] n3 v2 [Hsq Yq] Hf2 Hn3.
    apply (Hgo _ _ a1); [|lia].
    split; [exact Hmd1|]. split; [exact (eq_trans Hmain1 Hmain)|]. split; [exact Hidle1|].
    cbn [setval dom rd val]. split; [intros i Hr; apply Hd1, Hdom; auto|].
    split; [intros i Hi; apply Hr1, Hdr, Hd1; exact Hi|].
    assert (E12 : forall i, reg ar i -> v2 i = v1 i) by (intros i Hi; apply Hf2; auto).
    split; [apply okOn_all|]. split; [unfold TypedShort.maxRec; cbn [fc lkind]; rewrite ?Ea; lia|].
    intros w Hw Hs2. rewrite HP1. apply HP.
    + intros i Hi Hn. rewrite Hw; [|apply Hd1; exact Hi|auto]. rewrite Hf2 by auto. apply Hf1; auto.
    + apply HJ.
      * eapply sortedP_local; [|exact Hsq]. intros i Hi. apply Hw; [apply Hd1, Hdom; auto|auto].
      * exists v2. split; [|intros i Hi; apply Hw; [apply Hd1, Hdom; auto|auto]].
        unfold lseqCmd. destruct (Z.leb_spec maxRec (h' - l')); [lia|exact Yq].
      * eapply lsortedM_init; [|exact Hs2]. intros i Hi. symmetry. auto.
Qed.

(** The same, exactly. *)
Definition lsortedE (X : cells) (n : Z) (v w : Z -> T) : Prop :=
  sortedX X (Slice 0 n) v w /\ exists r, Z.of_nat r <= lmaxRounds n /\ lmainOut r 0 (n - 1) v w.

Lemma wp_lswSortConc (X : cells) n v (sn : Z) : (forall i, reg (rng 0 n) i -> X i) ->
  2 * (maxRec + 1) <= n + 1 -> n < cap -> 11 * n + 29 < 20 * wq -> 1 < sn ->
  (Z.to_nat (Z.log2 (n + 1) + 2) <= Dm)%nat ->
  wp (Z.to_nat (Z.log2 (n + 1) + 2)) (QM (fun _ w => lsortedE X (n + 1) v w))
    (Z.to_nat (cSort (n + 1) + 9)) (lswSortConc lt cap tn meanI n) (Gst X X v MInit sn).
Proof.
  intros HX Hs Hcap Hb Hsn HDm. rewrite lswSortConc_unfold. set (s := rng 0 n) in *.
  assert (C1 := cSort_pos (n + 1)). assert (L0 := Z.log2_nonneg (n + 1)).
  apply (wp_makesv body W _ _ _ _ _ (fun w => lsortedE X (n + 1) v w)); [lia|reflexivity|exact Hsn| |].
  { apply (lmany_of tn HIns HRec s); [unfold s, rng; simpl; lia|exact HX]. }
  set (Pr := fun w => lsortedE X (n + 1) v w). set (a0 := Act (Some Pr) Pr false true None).
  assert (E1 : n - 0 + 1 = n + 1) by lia.
  apply wp_bind. eapply wp_more; [apply (wp_lswMainLoop Pr (n + 1) 0 n) with (a := a0);
    [lia|lia|lia|exact Hcap|exact Hb| |reflexivity|rewrite E1; exact HDm]|rewrite E1; lia|rewrite E1; lia|].
  { split; [reflexivity|]. split; [reflexivity|]. split; [split; reflexivity|].
    split; [auto|]. split; [auto|]. split; [apply okOn_all|]. split; [unfold TypedShort.maxRec; cbn [fc lkind rng len]; lia|].
    intros w Hw Hsw. apply lsortedM_inv in Hsw. destruct Hsw as [Hsw (r & Hr & Hout)].
    rewrite E1 in Hr. change (lsortedE X (n + 1) v w). unfold lsortedE. replace (n + 1 - 1) with n by lia.
    assert (Es : Slice 0 (n + 1) = s) by (unfold s, rng; f_equal; lia). rewrite Es.
    split; [split; [exact Hsw|exact Hw]|]. exists r. auto. }
  cbv beta. intros [lo hi] m g1 Hm (Hl1 & Hl2 & (a1 & Hinv) & Hc). cbn [fst snd] in *.
  set (ar := rng lo hi) in *.
  destruct Hinv as (Hmd & Hmain & Hidle & Hdom & Hdr & Hok1 & Hlen & HP).
  unfold TypedShort.maxRec in Hlen; cbn [fc lkind ar rng len] in Hlen.
  assert (C2 := cSort_pos (hi - lo + 1)). assert (L2 := Z.log2_nonneg (hi - lo + 1)).
  assert (L3 : Z.log2 (hi - lo + 1) <= Z.log2 (n + 1)) by (apply Z.log2_le_mono; lia).
  apply wp_calln; [lia|lia|unfold live; rewrite Hmd; exact I|]. cbn [lswBody].
  eapply wp_apply; [apply (wp_lswLong lt lq Hlt cap tn meanI HM HIns HRec Dm lo hi g1 a1); [lia|lia|lia|lia|exact Hmd|exact Hidle|exact Hdom|auto|lia]
    |lia|lia|].
  cbv beta. intros _ m2 g2 (O & a2 & Em & Ea & Hi & HO & HD & HR & HV & HP2) Hm2. split; [lia|].
  eapply wp_adddec; [lia|exact Em|apply Hi|apply Hi| |].
  - intros w Hw. apply HP2.
    + intros i Hr Ho. apply Hw. apply HR. auto.
    + intros u Hu Hsu. apply HP; [|apply lsortedL_M; [lia|exact Hsu]]. intros i Hdi Hn.
      assert (Ho : ~ O i) by (intro Ho; apply Hn; auto).
      rewrite Hu by exact Ho. rewrite Hw; [apply HV; exact Hn|]. apply HR. auto.
  - intros z Hz. unfold signed_off. rewrite Ea, Hmain. destruct (Z.eqb_spec z 0).
    + apply wp_ret. cbn. auto.
    + eapply wp_recvwait; [lia|reflexivity|]. intros _. apply wp_ret. cbn. auto.
Qed.

(** ** Sort, started by its caller *)

(** The sequential part of Sort. *)
Lemma swp_lseqPart N v : let n := N - 1 in 0 <= N -> N <= cap -> 11 * N + 18 < 20 * wq ->
  swp (Z.to_nat (Z.log2 N + 2)) (Z.to_nat (cSort N + 8)) (reg (Slice 0 N)) (reg (Slice 0 N))
    (fun _ _ w => sortedP (Slice 0 N) v w)
    (if maxRec <=? n then Call (LLong 0 n false) (Ret tt)
     else if maxIns <=? n then Call (LShort 0 n) (Ret tt)
     else if 0 <? n then lswInsertion lt cap 0 n else Ret tt) v.
Proof.
  intros n H0 Hcap Hb. assert (En : n + 1 = N) by (unfold n; lia). set (s := Slice 0 N).
  assert (Er : rng 0 n = s) by (unfold rng, s; f_equal; lia). assert (En2 : n - 0 + 1 = N) by lia.
  assert (C1 := cSort_pos N). assert (L0 := Z.log2_nonneg N).
  destruct (Z.leb_spec maxRec n) as [C|C].
  + replace (Z.to_nat (Z.log2 N + 2)) with (S (Z.to_nat (Z.log2 N + 1))) by lia.
    apply swp_call; [lia|]. cbn [lswBody].
    eapply swp_apply; [apply (swp_lswLong lt lq Hlt cap tn meanI HM HIns HRec 0 n v); lia
      |rewrite En2; lia|rewrite En2; lia|rewrite Er; auto|rewrite Er; auto|].
    cbv beta. rewrite En2, Er. intros _ k v' Hs _ Hk. split; [lia|]. apply swp_ret. exact Hs.
  + destruct (Z.ltb_spec 0 n) as [C3|C3].
    * assert (G := swp_small2 (Wd := Wd) lt lq Hlt cap tn meanI HIns 0 n v ltac:(lia) ltac:(lia) ltac:(lia) ltac:(lia)).
      rewrite Z.sub_0_r in G.
      eapply swp_apply; [exact G|rewrite En; lia|rewrite En; lia|rewrite Er; auto|rewrite Er; auto|].
      cbv beta. rewrite Er. auto.
    * destruct (Z.leb_spec maxIns n); [lia|]. apply swp_ret. split; [apply permR_refl|].
      intros i j Hi Hij Hj. simpl in *. lia.
Qed.

Lemma wp_lswSort (X : cells) N v sn0 md0 : (forall i, reg (Slice 0 N) i -> X i) ->
  0 <= N -> N <= cap -> 11 * N + 18 < 20 * wq ->
  md0 = MInit \/ (md0 = MSeq /\ N < 2 * (maxRec + 1)) ->
  (Z.to_nat (Z.log2 N + 2) <= Dm)%nat ->
  wp (Z.to_nat (Z.log2 N + 2)) (QM (fun _ w => lsortedE X N v w))
    (Z.to_nat (cSort N + 12)) (lswSort lt cap tn meanI N) (Gst X X v md0 sn0).
Proof.
  intros HX H0 Hcap Hb Hmd HDm. unfold lswSort. rewrite iw_small by lia. cbv zeta.
  set (n := N - 1). assert (En : n + 1 = N) by (unfold n; lia).
  set (s := Slice 0 N) in *.
  assert (Er : rng 0 n = s) by (unfold rng, s; f_equal; lia).
  assert (En2 : n - 0 + 1 = N) by lia.
  assert (Hlive : match md0 with MSeq | MInit => True | _ => False end) by (destruct Hmd as [->|[-> _]]; exact I).
  assert (C1 := cSort_pos N). assert (L0 := Z.log2_nonneg N).
  assert (Hseq : forall sn m, (Z.to_nat (cSort N + 8) <= m)%nat -> wp (Z.to_nat (Z.log2 N + 2)) (QM (fun _ w => lsortedE X N v w))
    m (if maxRec <=? n then Call (LLong 0 n false) (Ret tt)
       else if maxIns <=? n then Call (LShort 0 n) (Ret tt)
       else if 0 <? n then lswInsertion lt cap 0 n else Ret tt)
      (Gst X X v md0 sn)).
  { intros sn m Hm. eapply wp_sapply with (n1 := Z.to_nat (cSort N + 8)) (R1 := reg s) (W1 := reg s)
      (Post := fun _ w => sortedP s v w /\ yields body (reg s) (if maxRec <=? n then Call (LLong 0 n false) (Ret tt)
       else if maxIns <=? n then Call (LShort 0 n) (Ret tt)
       else if 0 <? n then lswInsertion lt cap 0 n else Ret tt) v tt w) (D1 := Z.to_nat (Z.log2 N + 2)); [typeclasses eauto|unfold live; cbn [md]; destruct md0; tauto| |lia|exact Hm|exact HX|exact HX|].
    - cbn [val]. eapply swp_conseq; [apply (swp_exactly body _ _ _ (fun _ w => sortedP s v w))|intros [] m0 w0 _ H; exact H].
      apply swp_lseqPart; [exact H0|lia|lia].
    - unfold QM. cbn [md setval]. intros _ k v' [Hs Hy] Hf _.
      assert (G : forall w, agrees (setval (Gst X X v md0 sn) v') w -> lsortedE X N v w).
      { intros w Hw. split; [split; [eapply sortedP_local; [|exact Hs]; intros i Hi; apply Hw; apply HX; exact Hi|]|].
        - intros i Hi Hni. rewrite Hw by exact Hi. apply Hf. exact Hni.
        - exists O. split; [unfold lmaxRounds; lia|]. cbn [lmainOut]. fold n. rewrite Er.
          exists v'. split; [|intros i Hi; apply Hw, HX, Hi].
          unfold lseqCmd, lsmallCmd. rewrite Z.sub_0_r. destruct (Z.leb_spec maxRec n) as [C|C].
          + destruct (yields_call_inv body _ _ _ _ _ _ Hy) as (w1 & Y1 & Y2). apply yields_ret_inv in Y2. destruct Y2 as [_ ->]. exact Y1.
          + destruct (Z.leb_spec maxIns n); [exact Hy|]. destruct (Z.ltb_spec 0 n); [exact Hy|].
            apply yields_ret_inv in Hy. destruct Hy as [_ ->]. unfold lswInsertion.
            eapply yields_loop with (r := inr tt); [|cbv beta iota; auto]. cbv beta.
            destruct (Z.leb_spec (0 + 1) n); [lia|]. apply yields_ret. }
      destruct md0; try contradiction; exact G. }
  apply wp_bind. rewrite lswConc_plain. destruct (Z.leb_spec n (2 * maxRec)) as [C|C].
  - apply wp_ret. apply Hseq. lia.
  - destruct Hmd as [->|[_ Hmd]]; [|lia].
    apply wp_loadmax; [lia|exact I|]. intros mg Hmg. apply wp_ret. cbn [setseen dom rd val md seen].
    destruct (Z.leb_spec mg 1) as [Cm|Cm].
    + apply Hseq. lia.
    + eapply wp_more; [apply (wp_lswSortConc X n v mg); [rewrite Er; exact HX|lia|lia|lia|exact Cm|rewrite En; exact HDm]
        |rewrite En; lia|rewrite En; lia|].
      rewrite En. intros [] m g' _ Hq. exact Hq.
Qed.

End Sort.
