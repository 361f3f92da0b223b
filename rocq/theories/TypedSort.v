(** * partConX and sortX *)

From Coq Require Import List ZArith Lia Bool Permutation.
From Verif Require Import Lang SeqLogic Yields ConcLogic Base Scalar Typed SeqOps ScalarFacts TypedPart
  TypedPivot TypedShort ConcSort TypedLong.
Import ListNotations.
Open Scope Z_scope.

Local Arguments Z.mul : simpl never.
Local Arguments Z.add : simpl never.
Local Arguments Z.sub : simpl never.
Local Arguments Z.pow : simpl never.

(** The contract of sixb.MeanI on indices (github.com/jfcg/sixb, not in this repository). *)
Definition meanOk {Wd : word} (meanI : Z -> Z -> Z) : Prop :=
  forall x y, 0 <= x -> x < y -> y < 2 * wq -> x <= meanI x y < y.

Lemma permR_outer {T} (s : slice) l0 h0 (v w : Z -> T) :
  -1 <= l0 -> l0 < h0 -> h0 <= len s ->
  permL (cellsTwo s l0 h0) v w ->
  permR (off s + l0 + 1) (off s + h0) v w ->
  permR (off s) (off s + len s) v w.
Proof.
  intros H1 H2 H3 P1 P2. unfold permR. set (o := off s) in *.
  apply (permL_perm (cellsTwo s l0 h0 ++ zrange (o + l0 + 1) (o + h0))); [|apply permL_app; assumption].
  unfold cellsTwo. fold o.
  rewrite <- (zrange_app o (o + l0 + 1) (o + len s)), <- (zrange_app (o + l0 + 1) (o + h0) (o + len s)) by lia.
  rewrite <- app_assoc. apply Permutation_app_head. apply Permutation_app_comm.
Qed.

Section Sort.
Context {Wd : word}.
Context {T K : Type}.
Variable kd : kind T K.
Variable tn : tuning.
Variable meanI : Z -> Z -> Z.
Hypothesis HmeanI : meanOk meanI.
Variable ok : K -> Prop.
Hypothesis LW : laws kd ok.

Notation maxIns := (maxIns kd tn).
Notation maxRec := (maxRec kd tn).
Hypothesis HIns : 9 <= maxIns.
Hypothesis HRec : 2 * maxIns < maxRec.

Notation body := (body kd tn).
Notation swp := (swp body).
Notation sortedP := (sortedP kd).
Notation okOn := (okOn kd ok).
Notation parted := (parted kd ok).
Variable Dm : nat.
Notation G := (typedGrain kd tn).
Notation W := (wpT (Gr := G) body Dm).
Notation wp := (wp (Gr := G) body W).

Lemma onePost_ext s pv v0 k v w :
  (forall i, reg s i -> w i = v i) -> onePost kd pv s v0 k v -> onePost kd pv s v0 k w.
Proof.
  intros E (H1 & H2 & H3 & H4 & H5 & H6).
  assert (E' : forall i, 0 <= i < len s -> w (off s + i) = v (off s + i)).
  { intros i Hi. apply E. unfold reg; lia. }
  split; [exact H1|]. split.
  { apply permR_seg. rewrite (seg_ext w v) by exact E. apply permR_seg. exact H2. }
  split; [intros i Hi; rewrite E' by lia; auto|].
  split; [intros i Hi; rewrite E' by lia; auto|].
  split; intro Hk; [destruct (H5 Hk) as [A B]|destruct (H6 Hk) as [A B]]; split;
    intros i Hi; rewrite E' by lia; auto.
Qed.

(** What partConX computes: the same steps, one goroutine after the other. *)
Definition partSeq (s : slice) : cmd (proc K) T Z :=
  (pv <- pivot kd s (nsamples kd nsConc) ;;
   let mid := Z.shiftr (len s) 1 in
   let l := Z.shiftr mid 1 in
   let h := meanI mid (len s) in
   pl <- reslice s l h ;;
   k0 <- partOne kd pl pv ;;
   r <- partTwo kd s l h pv ;;
   let k := l + k0 in
   if r <? mid then gapLow kd s pv r k else gapHigh kd s pv r k)%cmd.

Definition cPC (n : Z) : Z := 78 * n + 640.

Lemma wp_partCon (Gr : grain) {Th : thawed Gr} s g a D :
  24 <= len s -> twice (dom g) -> len s < 2 * wq -> okOn s (val g) ->
  md g = MAct a -> a_main a <> None -> a_tok a = true -> idle a ->
  (forall i, reg s i -> dom g i) -> (forall i, reg s i -> rd g i) ->
  ConcLogic.wp body (wpT body Dm) D (fun k _ g' => exists a', md g' = MAct a' /\ a_main a' = a_main a /\ a_P a' = a_P a /\
          a_tok a' = true /\ idle a' /\
          (forall i, dom g' i <-> dom g i) /\ (forall i, rd g' i <-> rd g i) /\
          (forall i, rd g i -> ~ reg s i -> val g' i = val g i) /\
          parted s k (val g) (val g') /\ outs body (partSeq s) (reg s) (val g) k (val g'))
    (Z.to_nat (cPC (len s))) (partCon kd meanI s) g.
Proof.
  intros Hs Htw Hb Hok Hmd Hmain Htok Hidle Hdom Hrd.
  assert (Hlive : live g) by (unfold live; rewrite Hmd; exact I).
  unfold partCon. apply wp_bind. eapply wp_sapply;
    [typeclasses eauto|exact Hlive|apply swp_exactlyR, (swp_pivot kd _ ok LW s nsConc (val g) 0); [left; reflexivity|unfold nsConc; lia|lia|intros; apply Hok; unfold reg; lia]
    |lia|unfold cPivot, cPC; lia|exact Hrd|intros ? []|].
  cbv beta. intros pv n1 v1 [[-> Hpiv] Ypv] _ Hn1.
  assert (HY : forall k w, (let mid := Z.shiftr (len s) 1 in let l := Z.shiftr mid 1 in let h := meanI mid (len s) in
    outs body (pl <- reslice s l h ;; k0 <- partOne kd pl pv ;; r <- partTwo kd s l h pv ;;
      let k := l + k0 in if r <? mid then gapLow kd s pv r k else gapHigh kd s pv r k)%cmd (reg s) (val g) k w) ->
    outs body (partSeq s) (reg s) (val g) k w).
  { intros k w (w1 & Y1 & U1). exists w1. split; [|exact U1]. eapply yields_bind; [exact Ypv|exact Y1]. }
  destruct Hpiv as (Hokpv & (L & HLn & HLc & HL) & (jH & HjH & HjH')).
  set (mid := Z.shiftr (len s) 1). set (l := Z.shiftr mid 1). set (h := meanI mid (len s)).
  cbv zeta in HY |- *. fold mid in HY. fold l in HY. fold h in HY.
  assert (Hmid : 12 <= mid /\ 2 * mid <= len s <= 2 * mid + 1).
  { unfold mid. rewrite shiftr1. destruct (half (len s)) as (y & E & Hy). rewrite E. lia. }
  assert (Hl : 6 <= l /\ 2 * l <= mid <= 2 * l + 1).
  { unfold l. rewrite shiftr1. destruct (half mid) as (y & E & Hy). rewrite E. lia. }
  assert (Hh : mid <= h < len s) by (unfold h; apply HmeanI; lia).
  clearbody mid l h.
  set (pl := Slice (off s + l) (h - l)).
  apply wp_bind. eapply wp_sapply with (n1 := O) (D1 := O)
    (Post := fun x v' => (x = pl /\ v' = val g) /\ yields body empty (reslice s l h) (val g) x v') (R1 := empty) (W1 := empty);
    [typeclasses eauto|exact Hlive|apply (swp_exactly body _ _ _ (fun x v' => x = pl /\ v' = val g)), swp_reslice; [lia|lia|lia|auto]|lia|lia|intros ? []|intros ? []|].
  intros x n2 v' [[-> ->] Ypl] _ Hn2. cbn [setval dom rd val md seen]. sv.
  set (v0 := val g) in *. set (o := off s) in *.
  assert (Rms : forall i, reg pl i <-> o + l <= i < o + h) by (intro i; unfold reg, pl; simpl; lia).
  assert (Rs : forall i, reg s i <-> o <= i < o + len s) by (intro i; unfold reg; fold o; lia).
  assert (Msub : forall i, reg pl i -> reg s i) by (intros i; rewrite Rms, Rs; lia).
  assert (Hokms : forall i, 0 <= i < len pl -> ok (key kd (v0 (off pl + i)))).
  { intros i Hi. apply Hok. apply Msub. unfold reg. lia. }
  assert (Rtwo : forall i, regTwo s (l - 1) h i <-> o <= i < o + l \/ o + h <= i < o + len s).
  { intro i. unfold regTwo. fold o. lia. }
  assert (Hlms : len pl = h - l) by reflexivity.
  eapply wp_forkpart with (dj := reg pl) (d2 := reg pl) (r2 := reg pl)
    (post := fun k w => onePost kd pv pl v0 k w /\ outs body (partOne kd pl pv) (reg pl) v0 k w)
    (n1 := Z.to_nat (cPart (len pl) + 1)) (n2 := Z.to_nat (cPart2 (len s) + cGap (len s) + 2));
    [exact Hmd|exact Hmain|apply Hidle|exact Htok|apply Hidle|intros; apply Hdom; auto|auto|auto| | | | | ].
  { exact Htw. }
  { intro i. destruct (reg_dec pl i); auto. }
  { unfold cPart, cPart2, cGap, cPivot, cPC in *. lia. }
  { (* the partner *)
    constructor. cbn [Typed.body]. unfold gPartOne. apply wp_bind.
    eapply wp_sapply; [typeclasses eauto|exact I|apply swp_exactly, (swp_partOne kd _ ok LW pv Hokpv pl ltac:(lia) v0 0 Hokms)
      |lia|unfold cPart; lia|auto|auto|].
    cbv beta. cbn [setval dom rd val md seen]. intros k n3 v1 [Hk Yk] _ Hn3.
    eapply wp_sendpart; [unfold cPart in *; lia|reflexivity| |apply wp_ret; reflexivity].
    intros w Hw. cbn [j_post]. split; [eapply onePost_ext; [|exact Hk]; exact Hw|].
    exists v1. split; [exact Yk|exact Hw]. }
  (* the caller: outer parts *)
  apply wp_bind. cbn [setval dom rd val md seen].
  replace (partTwo kd s l h pv) with (partTwo kd s (l - 1 + 1) h pv) by (f_equal; lia).
  eapply wp_sapply;
    [typeclasses eauto|exact I|apply swp_exactly, (swp_partTwo kd _ ok LW pv Hokpv s (l - 1) h ltac:(lia) ltac:(lia) ltac:(lia) v0 0)
    |lia|unfold cPart2, cGap; lia| | |].
  { intros i Hi. apply Hok. apply Rtwo in Hi. fold o in Hi. rewrite Rs. fold o. lia. }
  { cbn. intros i Hi. apply Rtwo in Hi. split; [apply Hrd; rewrite Rs; lia|rewrite Rms; lia]. }
  { cbn. intros i Hi. apply Rtwo in Hi. split; [apply Hdom; rewrite Rs; lia|rewrite Rms; lia]. }
  cbv beta. cbn [setval dom rd val md seen]. intros r n3 v3 [Htwo Yr] Hf3 Hn3.
  replace (partTwo kd s (l - 1 + 1) h pv) with (partTwo kd s l h pv) in Yr by (f_equal; lia).
  eapply wp_recvjoin; [unfold cPart2, cGap in *; lia|reflexivity|reflexivity|].
  cbn [setval setjoin dom rd val md seen j_post j_D]. intros km w Hw [Hone (wm & Ym & Um)].
  assert (Ew : forall i, rd g i -> ~ reg pl i -> w i = v3 i).
  { intros i Hi Hn. apply Hw. cbn. split; assumption. }
  assert (Eout : forall i, o <= i < o + l \/ o + h <= i < o + len s -> w i = v3 i).
  { intros i Hi. apply Ew; [apply Hrd; rewrite Rs; lia|rewrite Rms; lia]. }
  assert (HY2 : forall k v' (R : Z -> Prop), (forall i, R i -> reg s i) ->
    yields body R (let k1 := l + km in if r <? mid then gapLow kd s pv r k1 else gapHigh kd s pv r k1) w k v' ->
    outs body (partSeq s) (reg s) v0 k v').
  { intros k v' R HR Yg. apply HY.
    assert (Em : forall i, ~ reg pl i -> wm i = v0 i) by (exact (yields_frame _ _ _ _ _ _ Ym)).
    assert (En : forall i, regTwo s (l - 1) h i -> ~ reg pl i) by (intros i; rewrite Rtwo, Rms; lia).
    destruct (yields_ext body _ _ _ _ _ wm Yr ltac:(intros i Hi; auto)) as (w3 & Y3 & E3).
    assert (F3 := yields_frame _ _ _ _ _ _ Y3).
    assert (Es : forall i, reg s i -> w3 i = w i).
    { intros i Hi. destruct (reg_dec pl i) as [Hp|Hp].
      - rewrite F3 by (intro Hx; exact (En i Hx Hp)). rewrite Um by exact Hp. reflexivity.
      - rewrite E3 by auto. symmetry. apply Ew; auto. }
    destruct (yields_ext body _ _ _ _ _ w3 Yg ltac:(intros i Hi; auto)) as (w4 & Y4 & E4).
    exists w4. split; [|intros i Hi; symmetry; apply E4; auto].
    eapply yields_bind; [eapply yields_mono; [exact Ypl|intros i []]|].
    eapply yields_bind; [eapply yields_mono; [exact Ym|exact Msub]|].
    eapply yields_bind; [eapply yields_mono; [exact Y3|intros i Hi; apply Rtwo in Hi; apply Rs; lia]|].
    eapply yields_mono; [exact Y4|exact HR]. }
  destruct Hone as (Hkm & P1 & L1 & H1 & Z1 & F1). rewrite Hlms in *.
  change (off pl) with (o + l) in *.
  destruct Htwo as (P2 & Htwo).
  assert (Hperm : permR o (o + len s) v0 w).
  { apply (permR_outer s (l - 1) h); [lia|lia|lia| |].
    - eapply permL_trans; [exact P2|]. apply permL_ext. intros i Hi. symmetry. apply Eout.
      apply cellsTwo_In in Hi. apply Rtwo in Hi. exact Hi.
    - fold o. replace (o + (l - 1) + 1) with (o + l) by lia.
      replace (o + l + (h - l)) with (o + h) in P1 by lia. exact P1. }
  assert (Hokw : okOn s w) by (eapply okOn_perm; [exact Hok|exact Hperm]).
  assert (Hokw' : forall i, 0 <= i < len s -> ok (key kd (w (off s + i)))).
  { intros i Hi. apply Hokw. rewrite Rs. fold o. lia. }
  assert (L1' : forall i, l <= i < l + km -> Lo kd pv (w (o + i))).
  { intros i Hi. replace (o + i) with (o + l + (i - l)) by lia. apply L1. lia. }
  assert (H1' : forall i, l + km <= i < h -> Hi kd pv (w (o + i))).
  { intros i Hi. replace (o + i) with (o + l + (i - l)) by lia. apply H1. lia. }
  set (a1 := setjoin a None).
  set (g3 := Gst (union (minus (dom g) (reg pl)) (reg pl)) (union (minus (rd g) (reg pl)) (reg pl)) w
               (MAct a1) (seen g)).
  assert (Hg3d : forall i, dom g3 i <-> dom g i).
  { intro i. cbn. unfold union, minus. destruct (reg_dec pl i) as [Hm|Hm]; [|tauto].
    generalize (Hdom i (Msub i Hm)). tauto. }
  assert (Hg3r : forall i, rd g3 i <-> rd g i).
  { intro i. cbn. unfold union, minus. destruct (reg_dec pl i) as [Hm|Hm]; [|tauto].
    generalize (Hrd i (Msub i Hm)). tauto. }
  assert (Hn4 : (Z.to_nat (cGap (len s)) <= n3 - 1)%nat) by (unfold cPart2, cGap in *; lia).
  assert (Fin : forall k v', parted s k v0 v' -> outs body (partSeq s) (reg s) v0 k v' -> (forall i, ~ reg s i -> v' i = w i) ->
    exists a', md (setval g3 v') = MAct a' /\ a_main a' = a_main a /\ a_P a' = a_P a /\
          a_tok a' = true /\ idle a' /\
          (forall i, dom (setval g3 v') i <-> dom g i) /\ (forall i, rd (setval g3 v') i <-> rd g i) /\
          (forall i, rd g i -> ~ reg s i -> val (setval g3 v') i = v0 i) /\
          parted s k v0 (val (setval g3 v')) /\ outs body (partSeq s) (reg s) v0 k (val (setval g3 v'))).
  { intros k v' Hpart Hout Hf. exists a1. split; [reflexivity|]. split; [reflexivity|]. split; [reflexivity|].
    split; [exact Htok|]. split; [split; [apply Hidle|reflexivity]|]. split; [exact Hg3d|].
    split; [exact Hg3r|]. split; [|split; [exact Hpart|exact Hout]].
    intros i Hi Hn. cbn. rewrite Hf by exact Hn. rewrite Ew; [|exact Hi|intro Hm; apply Hn; auto].
    apply Hf3. rewrite Rtwo. rewrite Rs in Hn. lia. }
  destruct Htwo as [(Hr & L2 & H2 & Z2)|(Hr & L2 & H2 & F2)].
  - destruct (Z.ltb_spec r mid) as [_|]; [|lia].
    eapply wp_sapply with (g := g3);
      [typeclasses eauto|exact I|apply swp_exactly, (swp_gapLow kd _ ok LW pv Hokpv s w r (l + km) 0 Hokw'); [lia|lia|lia| |]
      |lia|exact Hn4|intros i Hi; apply Hg3r; auto|intros i Hi; apply Hg3d; auto|].
    { intros i Hi. destruct (Z.lt_ge_cases i l); [|apply L1'; lia].
      fold o. rewrite Eout by lia. apply L2. lia. }
    { intros i Hi. destruct (Z.lt_ge_cases i h); [apply H1'; lia|].
      fold o. rewrite Eout by lia. apply H2. lia. }
    cbv beta. cbn [g3 val]. fold o. intros k m v' [(Hk & Hp & HkL & HkH & Hk0 & Hkk) Yg] Hf Hm.
    apply Fin; [| |exact Hf]; [|apply (HY2 k v' (reg s)); [auto|]; cbv zeta; destruct (Z.ltb_spec r mid); [exact Yg|lia]]. split; [|split; [eapply permR_trans; eassumption|exists pv; auto]].
    split; [|lia]. destruct (Z.eq_dec k 0) as [->|]; [|lia]. exfalso.
    destruct (Hk0 eq_refl) as (E1 & E2 & S1).
    assert (Er : r = l - 1) by lia. assert (Ekm : km = 0) by lia.
    destruct (Z1 Ekm) as [Em Sm]. destruct (Z2 Er) as [Ev3 S3].
    assert (All : forall i, 0 <= i < len s -> i <> h - 1 -> i <> h -> sHi kd pv (v0 (o + i))).
    { intros i Hi Hn1' Hn2'. destruct (Z.lt_ge_cases i l).
      - specialize (S1 i ltac:(lia)). rewrite E2, Eout, Ev3 in S1 by lia. exact S1.
      - destruct (Z.lt_ge_cases i h).
        + specialize (Sm (i - l) ltac:(lia)). rewrite (Em (i - l)) in Sm by lia.
          replace (o + l + (i - l)) with (o + i) in Sm by lia. exact Sm.
        + specialize (S3 i ltac:(lia)). rewrite Ev3 in S3. exact S3. }
    assert (Sub : forall i, In i L -> In i [h - 1; h]).
    { intros i Hi. destruct (HL i Hi) as [Hi1 Hi2].
      destruct (Z.eq_dec i (h - 1)); [subst; left; reflexivity|].
      destruct (Z.eq_dec i h); [subst; right; left; reflexivity|]. exfalso.
      apply (sHi_nLo kd ok LW pv Hokpv (v0 (o + i))); [apply Hok; rewrite Rs; lia|apply All; lia|exact Hi2]. }
    assert (Len := NoDup_incl_length HLn Sub). simpl in Len. lia.
  - destruct (Z.ltb_spec r mid) as [|_]; [lia|].
    eapply wp_sapply with (g := g3);
      [typeclasses eauto|exact I|apply swp_exactly, (swp_gapHigh kd _ ok LW pv Hokpv s w r (l + km) 0 Hokw'); [lia|lia|lia| |]
      |lia|exact Hn4|intros i Hi; apply Hg3r; auto|intros i Hi; apply Hg3d; auto|].
    { intros i Hi. destruct (Z.lt_ge_cases i l); [|apply L1'; lia].
      fold o. rewrite Eout by lia. apply L2. lia. }
    { intros i Hi. destruct (Z.lt_ge_cases i h); [apply H1'; lia|].
      fold o. rewrite Eout by lia. apply H2. lia. }
    cbv beta. cbn [g3 val]. fold o. intros k m v' [(Hk & Hp & HkL & HkH & Hk0) Yg] Hf Hm.
    apply Fin; [| |exact Hf]; [|apply (HY2 k v' (reg s)); [auto|]; cbv zeta; destruct (Z.ltb_spec r mid); [lia|exact Yg]]. split; [|split; [eapply permR_trans; eassumption|exists pv; auto]].
    split; [lia|]. destruct (Z.eq_dec k (len s)) as [Ek|]; [|lia]. exfalso.
    destruct (Hk0 Ek) as (E1 & E2 & S1).
    assert (Er : r = h) by lia. assert (Ekm : km = h - l) by lia.
    destruct (F1 Ekm) as [Em Sm]. destruct (F2 Er) as [Ev3 S3].
    apply (sLo_nHi kd ok LW pv Hokpv (v0 (o + jH))); [apply Hok; rewrite Rs; lia| |exact HjH'].
    destruct (Z.lt_ge_cases jH l).
    + specialize (S3 jH ltac:(lia)). rewrite Ev3 in S3. exact S3.
    + destruct (Z.lt_ge_cases jH h).
      * specialize (Sm (jH - l) ltac:(lia)). rewrite (Em (jH - l)) in Sm by lia.
        replace (o + l + (jH - l)) with (o + jH) in Sm by lia. exact Sm.
      * specialize (S1 jH ltac:(lia)). rewrite E2, Eout, Ev3 in S1 by lia. exact S1.
Qed.

(** ** The concurrent part of sortX *)

Hypothesis HRec2 : maxRec < wq - 1.

Lemma minConc_plain : minConc kd tn = 2 * (maxRec + 1).
Proof. unfold minConc. apply iw_small. unfold TypedShort.maxRec in *. lia. Qed.

Definition mainBody : slice -> cmd (proc K) T (slice + slice) :=
  (fun ar =>
    k <- partCon kd meanI ar ;;
    '(aq, ar) <- split ar k ;;
    (if maxRec <? len aq then AddGor 1 (fun _ => Fork (PGLong aq) (Ret tt))
     else if maxIns <? len aq then Call (PShort aq) (Ret tt)
     else insertion (ltT kd) aq) ;;;
    if len ar <? minConc kd tn then done ar
    else full <- gorFull ;; if full : bool then done ar else goto ar)%cmd.

Lemma sortConc_unfold s : sortConc kd tn meanI s =
  MakeSv (Bind (Loop s mainBody) (fun ar => Call (PLong ar true) (
    AddGor (2 ^ 64 - 1) (fun n => if n =? 0 then Ret tt else Recv (fun _ => Ret tt))))).
Proof. reflexivity. Qed.

(** ** The result, exactly

    It depends on nothing but the input and the number of rounds the caller makes with a partner
    before it goes on with longX: none, if everything is sequential. *)

Definition seqCmd (s : slice) : cmd (proc K) T unit :=
  if maxRec <? len s then long kd tn s false else smallCmd kd tn s.

Fixpoint mainOut (r : nat) (s : slice) (v u : Z -> T) : Prop :=
  match r with
  | O => outs body (seqCmd s) (reg s) v tt u
  | S r => exists k v1 aq ar, outs body (partSeq s) (reg s) v k v1 /\ isSplit s k aq ar /\
      yields body empty (split s k) v1 (aq, ar) v1 /\
      (forall i, reg aq i -> reg s i) /\ (forall i, reg ar i -> reg s i) /\
      outs body (seqCmd aq) (reg aq) v1 tt u /\ mainOut r ar v1 u
  end.

Lemma mainOut_init r s v v' u : (forall i, reg s i -> v' i = v i) -> mainOut r s v u -> mainOut r s v' u.
Proof.
  destruct r as [|r]; cbn [mainOut]; intros E H; [eapply outs_init; eassumption|].
  destruct H as (k & v1 & aq & ar & H1 & H2). exists k, v1, aq, ar. split; [eapply outs_init; eassumption|exact H2].
Qed.

Lemma mainOut_local r : forall s v u u', (forall i, reg s i -> u' i = u i) -> mainOut r s v u -> mainOut r s v u'.
Proof.
  induction r as [|r IH]; cbn [mainOut]; intros s v u u' E H; [eapply outs_local; eassumption|].
  destruct H as (k & v1 & aq & ar & H1 & H2 & H3 & Rq & Ra & H4 & H5). exists k, v1, aq, ar.
  split; [exact H1|]. split; [exact H2|]. split; [exact H3|]. split; [exact Rq|]. split; [exact Ra|].
  split; [eapply outs_local; [|exact H4]; auto|]. eapply IH; [|exact H5]. auto.
Qed.

(** One result for each number of rounds. *)
Lemma mainOut_fun r : forall s v u u', mainOut r s v u -> mainOut r s v u' -> forall i, reg s i -> u' i = u i.
Proof.
  induction r as [|r IH]; cbn [mainOut]; intros s v u u' H H'; [apply (outs_fun body _ _ _ _ _ _ _ H H')|].
  destruct H as (k & v1 & aq & ar & H1 & H2 & H3 & Rq & Ra & H4 & H5).
  destruct H' as (k' & v1' & aq' & ar' & H1' & _ & H3' & _ & _ & H4' & H5').
  destruct (outs_fun body _ _ _ _ _ _ _ H1 H1') as [-> E].
  destruct (yields_ext body _ _ _ _ _ v1 H3' ltac:(intros i [])) as (w2 & Y2 & _).
  destruct (yields_fun body _ _ _ _ _ _ _ _ H3 Y2) as [Ex _]. inversion Ex; subst aq' ar'. clear Ex w2 Y2.
  intros i Hi. destruct (isSplit_cover s k aq ar i H2 Hi) as [Hq|Ha].
  - eapply (outs_fun body); [exact H4| |exact Hq]. eapply outs_init; [|exact H4']. intros j Hj. symmetry. auto.
  - eapply IH; [exact H5| |exact Ha]. eapply mainOut_init; [|exact H5']. intros j Hj. symmetry. auto.
Qed.

Definition maxRounds (s : slice) : Z := Z.max 0 (len s - (2 * maxRec + 1)).

Definition sortedM (s : slice) (v u : Z -> T) : Prop :=
  sortedP s v u /\ exists r, Z.of_nat r <= maxRounds s /\ mainOut r s v u.

Lemma sortedM_local s v u u' :
  (forall i, reg s i -> u' i = u i) -> sortedM s v u -> sortedM s v u'.
Proof.
  intros E (H1 & r & H2 & H3). split; [eapply sortedP_local; eassumption|].
  exists r. split; [exact H2|eapply mainOut_local; eassumption].
Qed.

Lemma sortedM_init s v v' u :
  (forall i, reg s i -> v' i = v i) -> sortedM s v u -> sortedM s v' u.
Proof.
  intros E (H1 & r & H2 & H3). split; [eapply sortedP_init; eassumption|].
  exists r. split; [exact H2|eapply mainOut_init; eassumption].
Qed.

Lemma sortedL_M s v u : maxRec < len s -> sortedL kd tn s v u -> sortedM s v u.
Proof.
  intros H [H1 H2]. split; [exact H1|]. exists O. split; [unfold maxRounds; lia|].
  cbn [mainOut]. unfold seqCmd. destruct (Z.ltb_spec maxRec (len s)); [exact H2|lia].
Qed.

(** One more round. *)
Lemma sortedM_join s k aq ar v v1 u : 2 * (maxRec + 1) <= len s -> okOn s v -> parted s k v v1 ->
  isSplit s k aq ar -> yields body empty (split s k) v1 (aq, ar) v1 -> outs body (partSeq s) (reg s) v k v1 ->
  sortedP aq v1 u -> outs body (seqCmd aq) (reg aq) v1 tt u -> sortedM ar v1 u -> sortedM s v u.
Proof.
  intros Hs Hok Hpart Hsp Ysp Hout Hp Ho (H1 & r & H2 & H3).
  destruct (isSplit_reg s k aq ar (proj1 Hpart) Hsp) as (Raq & Rar & Rdis & Haq & Har & Hsum & Hle & Hoff).
  split; [eapply (sortedP_join kd ok LW); eassumption|]. exists (S r).
  split; [unfold maxRounds in *; lia|]. exists k, v1, aq, ar. auto 8.
Qed.

(** What the caller knows while it splits off ranges; [Sm] says how the rest should end up. *)
Definition MInv (Sm : slice -> (Z -> T) -> (Z -> T) -> Prop) (Pr : promise T) (ar : slice) (g : gst T) (a : act T) : Prop :=
  md g = MAct a /\ a_main a = Some Pr /\ idle a /\
  (forall i, reg ar i -> dom g i) /\ (forall i, dom g i -> rd g i) /\
  okOn ar (val g) /\ maxRec < len ar < 2 * wq /\
  forall w, (forall i, dom g i -> ~ reg ar i -> w i = val g i) ->
            Sm ar (val g) w -> a_P a w.

Lemma cSort_join2 a b m X : 1 <= a -> 1 <= b -> a + b = m -> X <= 200 * m - 200 ->
  cSort a + cSort b + X <= cSort m.
Proof.
  intros. unfold cSort. assert (a + b - 1 <= a * b) by nia. subst m.
  replace (100 * (a + b) * (a + b)) with (100 * a * a + 100 * b * b + 200 * (a * b)) by ring. lia.
Qed.

Lemma wp_mainLoop Pr : forall N s g a,
  len s <= N -> 2 * (maxRec + 1) <= len s -> MInv sortedM Pr s g a -> a_tok a = true ->
  (Z.to_nat (Z.log2 (len s) + 2) <= Dm)%nat ->
  wp (Z.to_nat (Z.log2 (len s) + 2))
    (fun ar m g' => len ar <= len s /\ (exists a', MInv sortedM Pr ar g' a') /\ cSort (len ar) + 8 <= Z.of_nat m)
    (Z.to_nat (cSort (len s) + 8)) (Loop s mainBody) g.
Proof.
  intro N. induction (Z.lt_wf 0 N) as [N _ IH]. intros s g a HN Hs Hinv Htok HDm.
  destruct Hinv as (Hmd & Hmain & Hidle & Hdom & Hdr & Hok & Hlen & HP).
  assert (Hrd : forall i, reg s i -> rd g i) by (intros; apply Hdr; auto).
  assert (Hlive : live g) by (unfold live; rewrite Hmd; exact I).
  assert (C1 := cSort_pos (len s)).
  assert (Cm : 100 * 40 * len s <= cSort (len s)) by (unfold cSort; nia).
  apply wp_loop; [lia|]. unfold mainBody at 1.
  apply wp_bind. eapply wp_apply;
    [apply (wp_partCon G s g a 0); [lia|apply (twice_one kd tn HIns HRec s); [exact Hs|exact Hdom]|lia|exact Hok|exact Hmd|congruence|exact Htok|exact Hidle|exact Hdom|exact Hrd]
    |lia|unfold cPC; lia|].
  cbv beta. intros k n1 g1 (a1 & Hmd1 & Hmain1 & HP1 & Htok1 & Hidle1 & Hd1 & Hr1 & Hf1 & Hpart & Hout) Hn1.
  assert (Hlive1 : live g1) by (unfold live; rewrite Hmd1; exact I).
  assert (Hk : 1 <= k <= len s - 1) by apply Hpart.
  apply wp_bind. eapply wp_sapply with (n1 := O) (D1 := O)
    (Post := fun x v' => (let '(aq, ar) := x in isSplit s k aq ar /\ v' = val g1) /\ yields body empty (split s k) (val g1) x v') (R1 := empty) (W1 := empty);
    [typeclasses eauto|exact Hlive1|apply (swp_exactly body _ _ _ (fun x v' => let '(aq, ar) := x in isSplit s k aq ar /\ v' = val g1)), swp_split; [lia|auto]|lia|lia|intros ? []|intros ? []|].
  intros [aq ar] n2 v' [[Hsp ->] Ysp] _ Hn2.
  replace (setval g1 (val g1)) with g1 by (destruct g1; reflexivity).
  destruct (isSplit_reg s k aq ar Hk Hsp) as (Raq & Rar & Rdis & Haq & Har & Hsum & Hle & Hoff).
  set (v1 := val g1) in *.
  assert (Hok1 : okOn s v1) by (eapply okOn_perm; [exact Hok|apply Hpart]).
  assert (Lq := log2_half (len aq) (len s) Haq ltac:(lia)).
  assert (La : Z.log2 (len ar) <= Z.log2 (len s)) by (apply Z.log2_le_mono; lia).
  assert (Lq0 := Z.log2_nonneg (len aq)). assert (La0 := Z.log2_nonneg (len ar)).
  assert (Cj := cSort_join2 (len aq) (len ar) (len s) (cPC (len s) + 100) Haq Har Hsum ltac:(unfold cPC; lia)).
  assert (Cq0 := cSort_pos (len aq)). assert (Ca0 := cSort_pos (len ar)).
  assert (Hn2' : cSort (len aq) + cSort (len ar) + 30 <= Z.of_nat n2) by (unfold cPC in *; lia).
  clear Hn1 Hn2 n1. rename n2 into n.
  assert (Hoff1 : reg aq (off aq)) by (unfold reg; lia).
  assert (Hoff2 : reg ar (off ar)) by (unfold reg; lia).
  assert (HJ : forall u, sortedP aq v1 u -> outs body (seqCmd aq) (reg aq) v1 tt u -> sortedM ar v1 u -> sortedM s (val g) u).
  { intros u Hu1 Hu2 Hu3. eapply sortedM_join; eassumption. }
  assert (Rdis' : forall i, reg ar i -> ~ reg aq i) by (intros i H1 H2; exact (Rdis i H2 H1)).
  assert (Hbig : maxRec < len ar) by lia.
  (* what follows once the shorter range is dealt with *)
  assert (Hgo : forall n g2 a2, MInv sortedM Pr ar g2 a2 -> cSort (len ar) + 12 <= Z.of_nat n ->
    wp (Z.to_nat (Z.log2 (len s) + 2))
      (fun r m g' => match r with
         | inl s' => wp (Z.to_nat (Z.log2 (len s) + 2))
             (fun ar m g' => len ar <= len s /\ (exists a', MInv sortedM Pr ar g' a') /\ cSort (len ar) + 8 <= Z.of_nat m)
             m (Loop s' mainBody) g'
         | inr ar => len ar <= len s /\ (exists a', MInv sortedM Pr ar g' a') /\ cSort (len ar) + 8 <= Z.of_nat m
         end) n
      (if len ar <? minConc kd tn then Ret (inr ar)
       else Bind gorFull (fun full : bool => if full then Ret (inr ar) else Ret (inl ar))) g2).
  { intros m g2 a2 Hi2 Hm.
    rewrite minConc_plain. destruct (Z.ltb_spec (len ar) (2 * (maxRec + 1))) as [Cs|Cs].
    { apply wp_ret. split; [lia|]. split; [exists a2; exact Hi2|lia]. }
    assert (Hi2' := Hi2). destruct Hi2' as (Hmd2 & Hmain2 & Hidle2 & Hdom2 & Hdr2 & Hok2 & Hlen2 & HP2).
    apply wp_bind. unfold gorFull. apply wp_loadmax; [lia|unfold live; rewrite Hmd2; exact I|]. intros mg Hmg.
    eapply wp_loadgor; [lia|exact Hmd2|apply Hidle2|apply Hidle2|]. intros ng.
    set (a3 := settok a2 (ng <? seen (setseen g2 mg))).
    set (g3 := setmd (setseen g2 mg) (MAct a3)).
    assert (Hi3 : MInv sortedM Pr ar g3 a3).
    { split; [reflexivity|]. split; [exact Hmain2|]. split; [exact Hidle2|]. split; [exact Hdom2|].
      split; [exact Hdr2|]. split; [exact Hok2|]. split; [exact Hlen2|exact HP2]. }
    apply wp_ret. destruct (Z.leb_spec mg ng) as [Cf|Cf].
    - apply wp_ret. split; [lia|]. split; [exists a3; exact Hi3|lia].
    - apply wp_ret. eapply wp_more; [apply (IH (len ar)) with (a := a3); [lia|lia|lia|exact Hi3| |lia]|lia|lia|].
      + cbn. destruct (Z.ltb_spec ng mg); [reflexivity|lia].
      + cbv beta. intros ar' m' g' Hm' (Hl & Ha & Hc). split; [lia|]. split; [exact Ha|lia]. }
  apply wp_bind. destruct (Z.ltb_spec maxRec (len aq)) as [Cc|Cc].
  - (* a goroutine for the shorter range *)
    eapply wp_addinc; [lia|exact Hmd1|apply Hidle1|exact Htok1|apply Hidle1| |].
    { apply (twice_of kd tn HIns HRec aq ar); [lia|lia|intros i Hi; apply Hd1, Hdom; auto|intros i Hi; apply Hd1, Hdom; auto|exact Rdis]. }
    intros z. eapply wp_forkcredit with (d1 := reg aq) (P1 := sortedL kd tn aq v1)
        (P2 := fun u => sortedL kd tn aq v1 u -> a_P a1 u)
        (n1 := Z.to_nat (cSort (len aq) + 4)) (n2 := Z.to_nat (cSort (len ar) + 12));
        [reflexivity|reflexivity|apply Hidle1| | | | |lia| | ].
    { intros i Hr. apply Hd1, Hdom. auto. }
    { apply (many_of kd tn HIns HRec aq); [lia|auto]. }
    { apply (many_of kd tn HIns HRec ar); [lia|]. intros i Hi. split; [apply Hd1, Hdom; auto|apply Rdis'; exact Hi]. }
    { cbn. auto. }
    + apply (wpT_gLong kd tn ok LW HIns HRec); [exact Cc|lia|eapply okOn_sub; [exact Hok1|exact Raq]|lia].
    + cbn [setmd dom rd val md seen]. apply wp_ret.
      apply (Hgo _ _ (forked (setcredit a1) (fun u => sortedL kd tn aq v1 u -> a_P a1 u))); [|lia].
      split; [reflexivity|]. split; [exact (eq_trans Hmain1 Hmain)|]. split; [split; [reflexivity|apply Hidle1]|].
      cbn [dom rd val]. split.
      { intros i Hr. split; [apply Hd1, Hdom; auto|auto]. }
      split; [intros i [H1 H2]; split; [apply Hr1, Hdr, Hd1; exact H1|exact H2]|].
      split; [eapply okOn_sub; [exact Hok1|exact Rar]|]. split; [lia|].
      cbn [forked a_P]. intros w Hw Hs1 [Hs2 Hs3]. rewrite HP1. apply HP.
      2:{ apply HJ; [exact Hs2| |exact Hs1]. unfold seqCmd. destruct (Z.ltb_spec maxRec (len aq)); [exact Hs3|lia]. }
      intros i Hi Hn. rewrite Hw; [apply Hf1; [auto|exact Hn]|split; [apply Hd1; exact Hi|auto]|auto].
  - eapply wp_sapply; [typeclasses eauto|exact Hlive1|apply swp_exactly, (swp_small kd tn ok LW HIns aq v1); [lia|lia|eapply okOn_sub; [exact Hok1|exact Raq]]
      |lia|lia|intros; apply Hr1, Hrd; auto|intros; apply Hd1, Hdom; auto|].
    cbv beta. intros [] n3 v2 [Hsq Yq] Hf2 Hn3.
    apply (Hgo _ _ a1); [|lia].
    split; [exact Hmd1|]. split; [exact (eq_trans Hmain1 Hmain)|]. split; [exact Hidle1|].
    cbn [setval dom rd val]. split; [intros i Hr; apply Hd1, Hdom; auto|].
    split; [intros i Hi; apply Hr1, Hdr, Hd1; exact Hi|].
    assert (E12 : forall i, reg ar i -> v2 i = v1 i) by (intros i Hi; apply Hf2; auto).
    split; [eapply okOn_ext; [eapply okOn_sub; [exact Hok1|exact Rar]|exact E12]|]. split; [lia|].
    intros w Hw Hs2. rewrite HP1. apply HP.
    + intros i Hi Hn. rewrite Hw; [|apply Hd1; exact Hi|auto]. rewrite Hf2 by auto. apply Hf1; auto.
    + apply HJ.
      * eapply sortedP_local; [|exact Hsq]. intros i Hi. apply Hw; [apply Hd1, Hdom; auto|auto].
      * exists v2. split; [|intros i Hi; apply Hw; [apply Hd1, Hdom; auto|auto]].
        unfold seqCmd. destruct (Z.ltb_spec maxRec (len aq)); [lia|exact Yq].
      * eapply sortedM_init; [|exact Hs2]. intros i Hi. symmetry. auto.
Qed.

(** Result of sorting [s] when the caller owns the cells [X]. *)
Definition sortedX (X : cells) (s : slice) (v w : Z -> T) : Prop :=
  sortedP s v w /\ forall i, X i -> ~ reg s i -> w i = v i.

(** The same, exactly. *)
Definition sortedE (X : cells) (s : slice) (v w : Z -> T) : Prop :=
  sortedX X s v w /\ exists r, Z.of_nat r <= maxRounds s /\ mainOut r s v w.

Lemma wp_sortConc (X : cells) s v (sn : Z) : (forall i, reg s i -> X i) ->
  2 * (maxRec + 1) <= len s -> len s < 2 * wq -> okOn s v -> 1 < sn ->
  (Z.to_nat (Z.log2 (len s) + 2) <= Dm)%nat ->
  wp (Z.to_nat (Z.log2 (len s) + 2)) (QM (fun _ w => sortedE X s v w))
    (Z.to_nat (cSort (len s) + 9)) (sortConc kd tn meanI s) (Gst X X v MInit sn).
Proof.
  intros HX Hs Hb Hok Hsn HDm. rewrite sortConc_unfold.
  assert (C1 := cSort_pos (len s)). assert (L0 := Z.log2_nonneg (len s)).
  apply (wp_makesv body W _ _ _ _ _ (fun w => sortedE X s v w)); [lia|reflexivity|exact Hsn| |].
  { apply (many_of kd tn HIns HRec s); [lia|exact HX]. }
  set (Pr := fun w => sortedE X s v w). set (a0 := Act (Some Pr) Pr false true None).
  apply wp_bind. eapply wp_more; [apply (wp_mainLoop Pr (len s)) with (a := a0); [lia|exact Hs| |reflexivity|exact HDm]|lia|lia|].
  { split; [reflexivity|]. split; [reflexivity|]. split; [split; reflexivity|].
    split; [auto|]. split; [auto|]. split; [exact Hok|]. split; [lia|]. intros w Hw [Hsw Hout]. split; [split; [exact Hsw|exact Hw]|exact Hout]. }
  cbv beta. intros ar m g1 Hm (Hl1 & (a1 & Hinv) & Hc).
  destruct Hinv as (Hmd & Hmain & Hidle & Hdom & Hdr & Hok1 & Hlen & HP).
  assert (C2 := cSort_pos (len ar)). assert (L2 := Z.log2_nonneg (len ar)).
  assert (L3 : Z.log2 (len ar) <= Z.log2 (len s)) by (apply Z.log2_le_mono; lia).
  apply wp_calln; [lia|lia|unfold live; rewrite Hmd; exact I|]. cbn [Typed.body].
  eapply wp_apply; [apply (wp_long kd tn ok LW HIns HRec Dm ar g1 a1); [lia|lia|exact Hok1|exact Hmd|exact Hidle|exact Hdom|auto|lia]
    |lia|lia|].
  cbv beta. intros _ m2 g2 (O & a2 & Em & Ea & Hi & HO & HD & HR & HV & HP2) Hm2. split; [lia|].
  eapply wp_adddec; [lia|exact Em|apply Hi|apply Hi| |].
  - intros w Hw. apply HP2.
    + intros i Hr Ho. apply Hw. apply HR. auto.
    + intros u Hu Hsu. apply HP; [|apply sortedL_M; [lia|exact Hsu]]. intros i Hdi Hn.
      assert (Ho : ~ O i) by (intro Ho; apply Hn; auto).
      rewrite Hu by exact Ho. rewrite Hw; [apply HV; exact Hn|]. apply HR. auto.
  - intros z Hz. unfold signed_off. rewrite Ea, Hmain. destruct (Z.eqb_spec z 0).
    + apply wp_ret. cbn. auto.
    + eapply wp_recvwait; [lia|reflexivity|]. intros _. apply wp_ret. cbn. auto.
Qed.

(** ** sortX, started by its caller *)

(** The sequential part of sortX. *)
Lemma swp_seqPart s v : 0 <= len s -> len s < 2 * wq -> okOn s v ->
  swp (Z.to_nat (Z.log2 (len s) + 2)) (Z.to_nat (cSort (len s) + 8)) (reg s) (reg s) (fun _ _ w => sortedP s v w)
    (if maxRec <? len s then Call (PLong s false) (Ret tt)
     else if maxIns <? len s then Call (PShort s) (Ret tt) else insertion (ltT kd) s) v.
Proof.
  intros H0 Hb Hok. assert (C1 := cSort_pos (len s)). assert (L0 := Z.log2_nonneg (len s)).
  destruct (Z.ltb_spec maxRec (len s)) as [C|C].
  + replace (Z.to_nat (Z.log2 (len s) + 2)) with (S (Z.to_nat (Z.log2 (len s) + 1))) by lia.
    apply swp_call; [lia|]. cbn [Typed.body].
    eapply swp_apply; [apply (swp_long kd tn ok LW HIns HRec s v C Hb Hok)|lia|lia|auto|auto|].
    cbv beta. intros _ m v' Hs _ Hm. split; [lia|]. apply swp_ret. exact Hs.
  + destruct (Z.eq_dec (len s) 0) as [E0|E0].
    * destruct (Z.ltb_spec maxIns (len s)); [lia|].
      eapply swp_apply; [apply (swp_ins kd tn ok LW s v 0); [lia|exact Hok]|lia| |auto|auto|].
      -- rewrite E0. reflexivity.
      -- cbv beta. auto.
    * eapply swp_apply; [apply (swp_small kd tn ok LW HIns s v); [lia|exact Hb|exact Hok]|lia|lia|auto|auto|].
      cbv beta. auto.
Qed.

Lemma wp_sort (X : cells) s v sn0 md0 : (forall i, reg s i -> X i) ->
  0 <= len s -> len s < 2 * wq -> okOn s v ->
  md0 = MInit \/ (md0 = MSeq /\ len s < 2 * (maxRec + 1)) ->
  (Z.to_nat (Z.log2 (len s) + 2) <= Dm)%nat ->
  wp (Z.to_nat (Z.log2 (len s) + 2)) (QM (fun _ w => sortedE X s v w))
    (Z.to_nat (cSort (len s) + 12)) (sort kd tn meanI s) (Gst X X v md0 sn0).
Proof.
  intros HX H0 Hb Hok Hmd HDm. unfold sort.
  assert (Hlive : match md0 with MSeq | MInit => True | _ => False end) by (destruct Hmd as [->|[-> _]]; exact I).
  assert (C1 := cSort_pos (len s)). assert (L0 := Z.log2_nonneg (len s)).
  assert (Hseq : forall sn n, (Z.to_nat (cSort (len s) + 8) <= n)%nat -> wp (Z.to_nat (Z.log2 (len s) + 2)) (QM (fun _ w => sortedE X s v w))
    n (if maxRec <? len s then Call (PLong s false) (Ret tt)
       else if maxIns <? len s then Call (PShort s) (Ret tt) else insertion (ltT kd) s)
      (Gst X X v md0 sn)).
  { intros sn n Hn. eapply wp_sapply with (n1 := Z.to_nat (cSort (len s) + 8)) (R1 := reg s) (W1 := reg s)
      (Post := fun _ w => sortedP s v w /\ yields body (reg s) (if maxRec <? len s then Call (PLong s false) (Ret tt)
       else if maxIns <? len s then Call (PShort s) (Ret tt) else insertion (ltT kd) s) v tt w) (D1 := Z.to_nat (Z.log2 (len s) + 2)); [typeclasses eauto|unfold live; cbn [md]; destruct md0; tauto| |lia|exact Hn|exact HX|exact HX|].
    - cbn [val]. eapply swp_conseq; [apply (swp_exactly body _ _ _ (fun _ w => sortedP s v w))|intros [] m0 w0 _ H; exact H].
      apply swp_seqPart; assumption.
    - unfold QM. cbn [md setval]. intros _ m v' [Hs Hy] Hf _.
      assert (G : forall w, agrees (setval (Gst X X v md0 sn) v') w -> sortedE X s v w).
      { intros w Hw. split; [split; [eapply sortedP_local; [|exact Hs]; intros i Hi; apply Hw; apply HX; exact Hi|
        intros i Hi Hni; rewrite Hw by exact Hi; apply Hf; exact Hni]|].
        exists O. split; [unfold maxRounds; lia|]. cbn [mainOut]. exists v'. split; [|intros i Hi; apply Hw, HX, Hi].
        unfold seqCmd. destruct (Z.ltb_spec maxRec (len s)) as [C|C]; [|exact Hy].
        destruct (yields_call_inv body _ _ _ _ _ _ Hy) as (w1 & Y1 & Y2). apply yields_ret_inv in Y2. destruct Y2 as [_ ->]. exact Y1. }
      destruct md0; try contradiction; exact G. }
  apply wp_bind. rewrite minConc_plain. destruct (Z.ltb_spec (len s) (2 * (maxRec + 1))) as [C|C].
  - apply wp_ret. apply Hseq. lia.
  - destruct Hmd as [->|[_ Hmd]]; [|lia].
    apply wp_loadmax; [lia|exact I|]. intros mg Hmg. apply wp_ret. cbn [setseen dom rd val md seen].
    destruct (Z.leb_spec mg 1) as [Cm|Cm].
    + apply Hseq. lia.
    + eapply wp_more; [apply (wp_sortConc X s v mg HX C Hb Hok Cm HDm)|lia|lia|].
      intros [] m g' _ Hq. exact Hq.
Qed.

End Sort.
