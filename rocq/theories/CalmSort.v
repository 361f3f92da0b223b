(** * sortX on a slice that is already sorted: no element is written, and with spread samples
      the number of steps is of order n log n *)

From Coq Require Import List ZArith Lia Bool.
From Verif Require Import Lang SeqLogic ConcLogic Base Scalar Typed SeqOps ScalarFacts TypedPart TypedPivot
  TypedShort ConcSort TypedLong TypedSort Calm CalmLong.
Import ListNotations.
Open Scope Z_scope.

Local Arguments Z.mul : simpl never.
Local Arguments Z.add : simpl never.
Local Arguments Z.sub : simpl never.
Local Arguments Z.pow : simpl never.

(** sixb.MeanI is a mean, rounded up or down. *)
Definition meanNear {Wd : word} (meanI : Z -> Z -> Z) : Prop :=
  forall x y, 0 <= x -> x < y -> y < 2 * wq -> x + y - 1 <= 2 * meanI x y <= x + y + 1.

Lemma cCalm_pos bal n : 0 <= n -> 0 <= cCalm bal n.
Proof.
  intro H. destruct (Z.eq_dec n 0) as [->|]; [unfold cCalm, cLog, cSort; destruct bal; cbn; lia|].
  assert (X := cCalm_low bal n ltac:(lia)). lia.
Qed.

Section Sort.
Context {Wd : word}.
Context {T K : Type}.
Variable kd : kind T K.
Variable tn : tuning.
Variable meanI : Z -> Z -> Z.
Variable ok : K -> Prop.
Hypothesis LW : laws kd ok.
Variable bal : bool.

Notation maxIns := (maxIns kd tn).
Notation maxRec := (maxRec kd tn).
Hypothesis HIns : 9 <= maxIns.
Hypothesis HRec : 2 * maxIns < maxRec.
Hypothesis Hbal : bal = true -> maxRec < 2 ^ 32.
Hypothesis HmeanI : meanOk meanI.
Hypothesis Hnear : meanNear meanI.

Notation body := (body kd tn).
Notation swp := (swp body).
Notation calm := (calm kd ok).
Notation cC := (cCalm bal).

Variable Dm : nat.
Notation G := (calmGrain kd tn).
Notation W := (wpT (Gr := G) body Dm).
Notation wp := (wp (Gr := G) body W).

Lemma cut_ext pv s v w k : (forall i, reg s i -> w i = v i) -> cut kd pv s v k -> cut kd pv s w k.
Proof.
  intros E (H1 & H2 & H3). split; [exact H1|].
  split; intros p Hp; rewrite E by (unfold reg; lia); auto.
Qed.

Lemma wp_partCon_calm s g a D :
  24 <= len s -> twice (Gr := G) (dom g) -> len s < 2 * wq -> calm s (val g) ->
  md g = MAct a -> a_main a <> None -> a_tok a = true -> idle a ->
  (forall i, reg s i -> dom g i) -> (forall i, reg s i -> rd g i) ->
  wp D (fun k _ g' => exists a', md g' = MAct a' /\ a_main a' = a_main a /\ a_P a' = a_P a /\
          a_tok a' = true /\ idle a' /\
          (forall i, dom g' i <-> dom g i) /\ (forall i, rd g' i <-> rd g i) /\
          (forall i, reg s i -> val g' i = val g i) /\ cutMid true s k)
    (Z.to_nat (cPC (len s))) (partCon kd meanI s) g.
Proof.
  intros Hs Htw Hb Hc Hmd Hmain Htok Hidle Hdom Hrd.
  assert (Hlive : live g) by (unfold live; rewrite Hmd; exact I).
  unfold partCon. apply wp_bind. eapply wp_rapply;
    [exact Hlive|apply (swp_pivot_calm kd _ ok LW s nsConc (val g) 0); [left; reflexivity|unfold nsConc; lia|lia|exact Hc]
    |lia|unfold cPivot, cPC; lia|exact Hrd|].
  cbv beta. intros pv n1 v1 [-> Hpiv] _ Hn1.
  destruct Hpiv as (Hokpv & p1 & p2 & Hp1 & Hp2 & HL & HH & Hmidp). specialize (Hmidp eq_refl).
  set (mid := Z.shiftr (len s) 1). set (l := Z.shiftr mid 1). set (h := meanI mid (len s)).
  cbv zeta.
  assert (Hmid : 12 <= mid /\ 2 * mid <= len s <= 2 * mid + 1).
  { unfold mid. rewrite shiftr1. destruct (half (len s)) as (y & E & Hy). rewrite E. lia. }
  assert (Hl : 6 <= l /\ 2 * l <= mid <= 2 * l + 1).
  { unfold l. rewrite shiftr1. destruct (half mid) as (y & E & Hy). rewrite E. lia. }
  assert (Hh : mid <= h < len s) by (unfold h; apply HmeanI; lia).
  assert (Hh2 : mid + len s - 1 <= 2 * h) by (unfold h; apply Hnear; lia).
  clearbody mid l h.
  set (pl := Slice (off s + l) (h - l)).
  apply wp_bind. eapply wp_rapply with (n1 := O) (D1 := O)
    (Post := fun x v' => x = pl /\ v' = val g) (R1 := empty);
    [exact Hlive|apply swp_reslice; [lia|lia|lia|auto]|lia|lia|intros ? []|].
  intros x n2 v' [-> ->] _ Hn2. cbn [setval dom rd val md seen]. sv.
  set (v0 := val g) in *. set (o := off s) in *.
  assert (Rms : forall i, reg pl i <-> o + l <= i < o + h) by (intro i; unfold reg, pl; simpl; lia).
  assert (Rs : forall i, reg s i <-> o <= i < o + len s) by (intro i; unfold reg; fold o; lia).
  assert (Msub : forall i, reg pl i -> reg s i) by (intros i; rewrite Rms, Rs; lia).
  assert (Rtwo : forall i, regTwo s (l - 1) h i <-> o <= i < o + l \/ o + h <= i < o + len s).
  { intro i. unfold regTwo. fold o. lia. }
  assert (Hlms : len pl = h - l) by reflexivity.
  assert (Hcm := calm_sub kd ok s pl v0 Msub Hc).
  assert (OutL : forall i, 0 <= i <= l - 1 -> ok (key kd (v0 (off s + i))) /\ Lo kd pv (v0 (off s + i))).
  { intros i Hi. split; [apply (calm_ok kd ok s v0 Hc); lia|].
    apply (calm_Lo kd ok LW pv Hokpv s v0 i p1 Hc); [lia|lia|exact HL]. }
  assert (OutH : forall i, h <= i < len s -> ok (key kd (v0 (off s + i))) /\ Hi kd pv (v0 (off s + i))).
  { intros i Hi. split; [apply (calm_ok kd ok s v0 Hc); lia|].
    apply (calm_Hi kd ok LW pv Hokpv s v0 i p2 Hc); [lia|lia|exact HH]. }
  eapply wp_forkpart with (dj := reg pl) (d2 := reg pl) (r2 := reg pl)
    (post := fun k w => (forall i, reg pl i -> w i = v0 i) /\ cut kd pv pl v0 k)
    (n1 := Z.to_nat (cPart (len pl) + 1)) (n2 := Z.to_nat (cPart2 (len s) + cGap (len s) + 2));
    [exact Hmd|exact Hmain|apply Hidle|exact Htok|apply Hidle|intros; apply Hdom; auto|auto|auto| | | | | ].
  { exact Htw. }
  { intro i. destruct (reg_dec pl i); auto. }
  { unfold cPart, cPart2, cGap, cPivot, cPC in *. lia. }
  { (* the partner *)
    constructor. cbn [Typed.body]. unfold gPartOne. apply wp_bind.
    eapply wp_rapply; [exact I|apply (swp_partOne_calm kd _ ok LW pv Hokpv pl v0 0 ltac:(lia) Hcm)
      |lia|unfold cPart; lia|auto|].
    cbv beta. cbn [setval dom rd val md seen]. intros k n3 v1 [-> Hk] _ Hn3.
    eapply wp_sendpart; [unfold cPart in *; lia|reflexivity| |apply wp_ret; reflexivity].
    intros w Hw. cbn [j_post]. split; [exact Hw|exact Hk]. }
  (* the caller: outer parts *)
  apply wp_bind. cbn [setval dom rd val md seen].
  replace (partTwo kd s l h pv) with (partTwo kd s (l - 1 + 1) h pv) by (f_equal; lia).
  eapply wp_rapply;
    [exact I|apply (swp_partTwo_calm kd _ ok LW pv Hokpv s v0 (l - 1) h ltac:(lia) ltac:(lia) ltac:(lia) OutL OutH 0)
    |lia|unfold cPart2, cGap; lia| |].
  { cbn. intros i Hi. apply Rtwo in Hi. split; [apply Hrd; rewrite Rs; lia|rewrite Rms; lia]. }
  cbv beta. cbn [setval dom rd val md seen]. intros r n3 v3 [-> Htwo] _ Hn3.
  eapply wp_recvjoin; [unfold cPart2, cGap in *; lia|reflexivity|reflexivity|].
  cbn [setval setjoin dom rd val md seen j_post j_D]. intros km w Hw [Hin Hone].
  assert (Ew : forall i, reg s i -> w i = v0 i).
  { intros i Hi. destruct (reg_dec pl i) as [Hm|Hm]; [apply Hin; exact Hm|]. apply Hw. cbn. split; [apply Hrd; exact Hi|exact Hm]. }
  assert (OutLw : forall i, 0 <= i <= l - 1 -> ok (key kd (w (off s + i))) /\ Lo kd pv (w (off s + i))).
  { intros i Hi. rewrite Ew by (rewrite Rs; fold o; lia). apply OutL; exact Hi. }
  assert (OutHw : forall i, h <= i < len s -> ok (key kd (w (off s + i))) /\ Hi kd pv (w (off s + i))).
  { intros i Hi. rewrite Ew by (rewrite Rs; fold o; lia). apply OutH; exact Hi. }
  assert (Hcut : cutMid true s (l + km)).
  { destruct Hone as (K1 & K2 & K3). rewrite Hlms in *. change (off pl) with (o + l) in *.
    assert (K2' : forall p, l <= p < h -> p <= p1 -> p - l + 1 <= km \/ h - l <= 2 * km + 1).
    { intros p Hp Hpp. specialize (K2 (p - l) ltac:(lia)). replace (o + l + (p - l)) with (off s + p) in K2 by (unfold o; lia).
      apply K2. apply (calm_Lo kd ok LW pv Hokpv s v0 p p1 Hc); [lia|lia|exact HL]. }
    assert (K3' : forall p, l <= p < h -> p2 <= p -> km <= p - l \/ 2 * km <= h - l + 1).
    { intros p Hp Hpp. specialize (K3 (p - l) ltac:(lia)). replace (o + l + (p - l)) with (off s + p) in K3 by (unfold o; lia).
      apply K3. apply (calm_Hi kd ok LW pv Hokpv s v0 p p2 Hc); [lia|lia|exact HH]. }
    assert (Low : len s <= 3 * (l + km)).
    { destruct (Z.lt_ge_cases p1 l); [lia|]. destruct (Z.lt_ge_cases p1 h).
      - specialize (K2' p1 ltac:(lia) ltac:(lia)). lia.
      - specialize (K2' (h - 1) ltac:(lia) ltac:(lia)). lia. }
    assert (High : len s <= 3 * (len s - (l + km))).
    { destruct (Z.lt_ge_cases p2 l).
      - specialize (K3' l ltac:(lia) ltac:(lia)). lia.
      - destruct (Z.lt_ge_cases p2 h); [specialize (K3' p2 ltac:(lia) ltac:(lia)); lia|lia]. }
    split; [lia|]. intros _. split; assumption. }
  set (a1 := setjoin a None).
  set (g3 := Gst (union (minus (dom g) (reg pl)) (reg pl)) (union (minus (rd g) (reg pl)) (reg pl)) w
               (MAct a1) (seen g)).
  assert (Hg3d : forall i, dom g3 i <-> dom g i).
  { intro i. cbn. unfold union, minus. destruct (reg_dec pl i) as [Hm|Hm]; [|tauto].
    generalize (Hdom i (Msub i Hm)). tauto. }
  assert (Hg3r : forall i, rd g3 i <-> rd g i).
  { intro i. cbn. unfold union, minus. destruct (reg_dec pl i) as [Hm|Hm]; [|tauto].
    generalize (Hrd i (Msub i Hm)). tauto. }
  assert (Hn4 : (Z.to_nat (cGap (len s)) <= n3 - 1)%nat) by (unfold cPart2, cGap in *; lia).
  assert (Fin : exists a', md (setval g3 w) = MAct a' /\ a_main a' = a_main a /\ a_P a' = a_P a /\
          a_tok a' = true /\ idle a' /\
          (forall i, dom (setval g3 w) i <-> dom g i) /\ (forall i, rd (setval g3 w) i <-> rd g i) /\
          (forall i, reg s i -> val (setval g3 w) i = v0 i) /\ cutMid true s (l + km)).
  { exists a1. split; [reflexivity|]. split; [reflexivity|]. split; [reflexivity|].
    split; [exact Htok|]. split; [split; [apply Hidle|reflexivity]|]. split; [exact Hg3d|].
    split; [exact Hg3r|]. split; [exact Ew|exact Hcut]. }
  destruct Htwo as [Hr|Hr].
  - destruct (Z.ltb_spec r mid) as [_|]; [|lia].
    eapply wp_rapply with (g := g3);
      [exact I|apply (swp_gapLow_calm kd _ ok LW pv Hokpv s w (l - 1) OutLw 0 r (l + km)); lia
      |lia|exact Hn4|intros i Hi; apply Hg3r; auto|].
    cbv beta. intros k m v' [-> ->] _ _. exact Fin.
  - destruct (Z.ltb_spec r mid) as [|_]; [lia|].
    eapply wp_rapply with (g := g3);
      [exact I|apply (swp_gapHigh_calm kd _ ok LW pv Hokpv s w (l - 1) h ltac:(lia) ltac:(lia) ltac:(lia) OutHw 0 r (l + km)); lia
      |lia|exact Hn4|intros i Hi; apply Hg3r; auto|].
    cbv beta. intros k m v' [-> ->] _ _. exact Fin.
Qed.

(** ** The concurrent part of sortX *)

Hypothesis HRec2 : maxRec < wq - 1.
Notation mainBody := (mainBody kd tn meanI).

(** What the caller knows while it splits off ranges. *)
Definition CInv (ar : slice) (g : gst T) (a : act T) : Prop :=
  md g = MAct a /\ a_main a = Some any /\ idle a /\
  (forall i, reg ar i -> dom g i) /\ (forall i, dom g i -> rd g i) /\
  calm ar (val g) /\ maxRec < len ar < 2 * wq /\ forall w, a_P a w.

Lemma wp_mainLoop_calm : forall N s g a,
  len s <= N -> 2 * (maxRec + 1) <= len s -> CInv s g a -> a_tok a = true ->
  (Z.to_nat (Z.log2 (len s) + 2) <= Dm)%nat ->
  wp (Z.to_nat (Z.log2 (len s) + 2))
    (fun ar m g' => len ar <= len s /\ (exists a', CInv ar g' a') /\ cC (len ar) + 8 <= Z.of_nat m)
    (Z.to_nat (cC (len s) + 8)) (Loop s mainBody) g.
Proof.
  intro N. induction (Z.lt_wf 0 N) as [N _ IH]. intros s g a HN Hs Hinv Htok HDm.
  destruct Hinv as (Hmd & Hmain & Hidle & Hdom & Hdr & Hc & Hlen & HP).
  assert (Hrd : forall i, reg s i -> rd g i) by (intros; apply Hdr; auto).
  assert (Hlive : live g) by (unfold live; rewrite Hmd; exact I).
  assert (Cm := cCalm_mid (len s) bal ltac:(lia)).
  apply wp_loop; [lia|]. unfold TypedSort.mainBody at 1.
  apply wp_bind. eapply wp_apply;
    [apply (wp_partCon_calm s g a 0); [lia|apply (twice_one kd tn HIns HRec s); [exact Hs|exact Hdom]|lia|exact Hc|exact Hmd|congruence|exact Htok|exact Hidle|exact Hdom|exact Hrd]
    |lia|unfold cPC; lia|].
  cbv beta. intros k n1 g1 (a1 & Hmd1 & Hmain1 & HP1 & Htok1 & Hidle1 & Hd1 & Hr1 & Hv1 & Hcut) Hn1.
  assert (Hlive1 : live g1) by (unfold live; rewrite Hmd1; exact I).
  assert (Hk : 1 <= k <= len s - 1) by apply Hcut.
  apply wp_bind. eapply wp_rapply with (n1 := O) (D1 := O)
    (Post := fun '(aq, ar) v' => isSplit s k aq ar /\ v' = val g1) (R1 := empty);
    [exact Hlive1|apply swp_split; [lia|auto]|lia|lia|intros ? []|].
  intros [aq ar] n2 v' [Hsp ->] _ Hn2.
  replace (setval g1 (val g1)) with g1 by (destruct g1; reflexivity).
  destruct (isSplit_reg s k aq ar Hk Hsp) as (Raq & Rar & Rdis & Haq & Har & Hsum & Hle & Hoff).
  assert (Hc1 := calm_ext kd ok s (val g) (val g1) Hv1 Hc).
  set (v1 := val g1) in *.
  assert (Hcq := calm_sub kd ok s aq v1 Raq Hc1). assert (Hca := calm_sub kd ok s ar v1 Rar Hc1).
  assert (Lq := log2_half (len aq) (len s) Haq ltac:(lia)).
  assert (La : Z.log2 (len ar) <= Z.log2 (len s)) by (apply Z.log2_le_mono; lia).
  assert (Lq0 := Z.log2_nonneg (len aq)). assert (La0 := Z.log2_nonneg (len ar)).
  assert (Cj : cC (len aq) + cC (len ar) + 100 * len s <= cC (len s)).
  { apply cCalm_join; try lia. destruct Hcut as [_ H2]. destruct Hsp as [H3 H4]. specialize (H2 eq_refl). lia. }
  assert (Cq0 := cCalm_low bal (len aq) Haq). assert (Ca0 := cCalm_low bal (len ar) Har).
  assert (Hn2' : cC (len aq) + cC (len ar) + 30 <= Z.of_nat n2) by (unfold cPC in *; lia).
  clear Hn1 Hn2 n1. rename n2 into n.
  assert (Hoff1 : reg aq (off aq)) by (unfold reg; lia).
  assert (Hoff2 : reg ar (off ar)) by (unfold reg; lia).
  assert (Rdis' : forall i, reg ar i -> ~ reg aq i) by (intros i H1 H2; exact (Rdis i H2 H1)).
  assert (Hbig : maxRec < len ar) by lia.
  (* what follows once the shorter range is dealt with *)
  assert (Hgo : forall n g2 a2, CInv ar g2 a2 -> cC (len ar) + 12 <= Z.of_nat n ->
    wp (Z.to_nat (Z.log2 (len s) + 2))
      (fun r m g' => match r with
         | inl s' => wp (Z.to_nat (Z.log2 (len s) + 2))
             (fun ar m g' => len ar <= len s /\ (exists a', CInv ar g' a') /\ cC (len ar) + 8 <= Z.of_nat m)
             m (Loop s' mainBody) g'
         | inr ar => len ar <= len s /\ (exists a', CInv ar g' a') /\ cC (len ar) + 8 <= Z.of_nat m
         end) n
      (if len ar <? minConc kd tn then Ret (inr ar)
       else Bind (gorFull) (fun full : bool => if full then Ret (inr ar) else Ret (inl ar))) g2).
  { intros m g2 a2 Hi2 Hm.
    rewrite (minConc_plain kd tn HIns HRec HRec2). destruct (Z.ltb_spec (len ar) (2 * (maxRec + 1))) as [Cs|Cs].
    { apply wp_ret. split; [lia|]. split; [exists a2; exact Hi2|lia]. }
    assert (Hi2' := Hi2). destruct Hi2' as (Hmd2 & Hmain2 & Hidle2 & Hdom2 & Hdr2 & Hok2 & Hlen2 & HP2).
    apply wp_bind. unfold gorFull. apply wp_loadmax; [lia|unfold live; rewrite Hmd2; exact I|]. intros mg Hmg.
    eapply wp_loadgor; [lia|exact Hmd2|apply Hidle2|apply Hidle2|]. intros ng.
    set (a3 := settok a2 (ng <? seen (setseen g2 mg))).
    set (g3 := setmd (setseen g2 mg) (MAct a3)).
    assert (Hi3 : CInv ar g3 a3).
    { split; [reflexivity|]. split; [exact Hmain2|]. split; [exact Hidle2|]. split; [exact Hdom2|].
      split; [exact Hdr2|]. split; [exact Hok2|]. split; [exact Hlen2|exact HP2]. }
    apply wp_ret. destruct (Z.leb_spec mg ng) as [Cf|Cf].
    - apply wp_ret. split; [lia|]. split; [exists a3; exact Hi3|lia].
    - apply wp_ret. eapply wp_more; [apply (IH (len ar)) with (a := a3); [lia|lia|lia|exact Hi3| |lia]|lia|lia|].
      + cbn. destruct (Z.ltb_spec ng mg); [reflexivity|lia].
      + cbv beta. intros ar' m' g' Hm' (Hl & Ha & Hcc). split; [lia|]. split; [exact Ha|lia]. }
  apply wp_bind. destruct (Z.ltb_spec maxRec (len aq)) as [Cc|Cc].
  - (* a goroutine for the shorter range *)
    eapply wp_addinc; [lia|exact Hmd1|apply Hidle1|exact Htok1|apply Hidle1| |].
    { apply (twice_of kd tn HIns HRec aq ar); [lia|lia|intros i Hi; apply Hd1, Hdom; auto|intros i Hi; apply Hd1, Hdom; auto|exact Rdis]. }
    intros z. eapply wp_forkcredit with (d1 := reg aq) (P1 := any)
        (P2 := fun u => any u -> a_P a1 u)
        (n1 := Z.to_nat (cC (len aq) + 4)) (n2 := Z.to_nat (cC (len ar) + 12));
        [reflexivity|reflexivity|apply Hidle1| | | | |lia| | ].
    { intros i Hr. apply Hd1, Hdom. auto. }
    { apply (many_of kd tn HIns HRec aq); [lia|auto]. }
    { apply (many_of kd tn HIns HRec ar); [lia|]. intros i Hi. split; [apply Hd1, Hdom; auto|apply Rdis'; exact Hi]. }
    { cbn. auto. }
    + apply (wpT_gLong_calm kd tn ok LW bal HIns HRec Hbal); [exact Cc|lia|exact Hcq|lia].
    + cbn [setmd dom rd val md seen]. apply wp_ret.
      apply (Hgo _ _ (forked (setcredit a1) (fun u => any u -> a_P a1 u))); [|lia].
      split; [reflexivity|]. split; [exact (eq_trans Hmain1 Hmain)|]. split; [split; [reflexivity|apply Hidle1]|].
      cbn [dom rd val]. split.
      { intros i Hr. split; [apply Hd1, Hdom; auto|auto]. }
      split; [intros i [H1 H2]; split; [apply Hr1, Hdr, Hd1; exact H1|exact H2]|].
      split; [exact Hca|]. split; [lia|].
      cbn [forked a_P]. intros w _. rewrite HP1. apply HP.
  - eapply wp_rapply; [exact Hlive1|apply (swp_small_calm kd tn ok LW bal HIns HRec Hbal aq v1); [lia|lia|exact Hcq]
      |lia|lia|intros; apply Hr1, Hrd; auto|].
    cbv beta. intros _ n3 v2 -> _ Hn3.
    apply (Hgo _ _ a1); [|lia].
    split; [exact Hmd1|]. split; [exact (eq_trans Hmain1 Hmain)|]. split; [exact Hidle1|].
    cbn [setval dom rd val]. split; [intros i Hr; apply Hd1, Hdom; auto|].
    split; [intros i Hi; apply Hr1, Hdr, Hd1; exact Hi|].
    split; [exact Hca|]. split; [lia|]. intros w. rewrite HP1. apply HP.
Qed.

Lemma wp_sortConc_calm (X : cells) s v (sn : Z) : (forall i, reg s i -> X i) ->
  2 * (maxRec + 1) <= len s -> len s < 2 * wq -> calm s v -> 1 < sn ->
  (Z.to_nat (Z.log2 (len s) + 2) <= Dm)%nat ->
  wp (Z.to_nat (Z.log2 (len s) + 2)) (QM (fun _ _ => True))
    (Z.to_nat (cC (len s) + 9)) (sortConc kd tn meanI s) (Gst X X v MInit sn).
Proof.
  intros HX Hs Hb Hc Hsn HDm. rewrite sortConc_unfold.
  assert (C1 := cCalm_low bal (len s) ltac:(lia)). assert (L0 := Z.log2_nonneg (len s)).
  apply (wp_makesv body W _ _ _ _ _ any); [lia|reflexivity|exact Hsn| |].
  { apply (many_of kd tn HIns HRec s); [lia|exact HX]. }
  set (a0 := Act (Some any) any false true None).
  apply wp_bind. eapply wp_more; [apply (wp_mainLoop_calm (len s)) with (a := a0); [lia|exact Hs| |reflexivity|exact HDm]|lia|lia|].
  { split; [reflexivity|]. split; [reflexivity|]. split; [split; reflexivity|].
    split; [auto|]. split; [auto|]. split; [exact Hc|]. split; [lia|]. intros w. exact I. }
  cbv beta. intros ar m g1 Hm (Hl1 & (a1 & Hinv) & Hcc).
  destruct Hinv as (Hmd & Hmain & Hidle & Hdom & Hdr & Hc1 & Hlen & HP).
  assert (C2 := cCalm_low bal (len ar) ltac:(lia)). assert (L2 := Z.log2_nonneg (len ar)).
  assert (L3 : Z.log2 (len ar) <= Z.log2 (len s)) by (apply Z.log2_le_mono; lia).
  apply wp_calln; [lia|lia|unfold live; rewrite Hmd; exact I|]. cbn [Typed.body].
  eapply wp_apply; [apply (wp_long_calm kd tn ok LW bal HIns HRec Hbal Dm ar g1 a1); [lia|lia|exact Hc1|exact Hmd|exact Hidle|exact Hdom|auto|lia]
    |lia|lia|].
  cbv beta. intros _ m2 g2 (O & a2 & Em & Ea & Hi & HO & HD & HR & HV & HP2) Hm2. split; [lia|].
  eapply wp_adddec; [lia|exact Em|apply Hi|apply Hi| |].
  - intros w Hw. apply HP2.
    + intros i Hr Ho. apply Hw. apply HR. auto.
    + intros u Hu Hsu. apply HP.
  - intros z Hz. unfold signed_off. rewrite Ea, Hmain. destruct (Z.eqb_spec z 0).
    + apply wp_ret. cbn. auto.
    + eapply wp_recvwait; [lia|reflexivity|]. intros _. apply wp_ret. cbn. auto.
Qed.

(** ** sortX, started by its caller *)

Lemma wp_sort_calm (X : cells) s v sn0 md0 : (forall i, reg s i -> X i) ->
  0 <= len s -> len s < 2 * wq -> calm s v ->
  md0 = MInit \/ (md0 = MSeq /\ len s < 2 * (maxRec + 1)) ->
  (Z.to_nat (Z.log2 (len s) + 2) <= Dm)%nat ->
  wp (Z.to_nat (Z.log2 (len s) + 2)) (QM (fun _ _ => True))
    (Z.to_nat (cC (len s) + 12)) (sort kd tn meanI s) (Gst X X v md0 sn0).
Proof.
  intros HX H0 Hb Hc Hmd HDm. unfold sort.
  assert (Hlive : match md0 with MSeq | MInit => True | _ => False end) by (destruct Hmd as [->|[-> _]]; exact I).
  assert (C1 := cCalm_pos bal (len s) H0). assert (L0 := Z.log2_nonneg (len s)).
  assert (Hseq : forall sn n, (Z.to_nat (cC (len s) + 8) <= n)%nat -> wp (Z.to_nat (Z.log2 (len s) + 2)) (QM (fun _ _ => True))
    n (if maxRec <? len s then Call (PLong s false) (Ret tt)
       else if maxIns <? len s then Call (PShort s) (Ret tt) else insertion (ltT kd) s)
      (Gst X X v md0 sn)).
  { intros sn n Hn. eapply wp_rapply with (n1 := Z.to_nat (cC (len s) + 8)) (R1 := reg s)
      (Post := fun _ w => w = v) (D1 := Z.to_nat (Z.log2 (len s) + 2)); [unfold live; cbn [md]; destruct md0; tauto| |lia|exact Hn|exact HX|].
    - cbn [val]. destruct (Z.ltb_spec maxRec (len s)) as [C|C].
      + replace (Z.to_nat (Z.log2 (len s) + 2)) with (S (Z.to_nat (Z.log2 (len s) + 1))) by lia.
        apply swp_call; [lia|]. cbn [Typed.body].
        eapply swp_apply; [apply (swp_long_calm kd tn ok LW bal HIns HRec Hbal s v C Hb Hc)|lia|lia|auto|auto|].
        cbv beta. intros _ m v' -> _ Hm. split; [lia|]. apply swp_ret. reflexivity.
      + destruct (Z.eq_dec (len s) 0) as [E0|E0].
        * destruct (Z.ltb_spec maxIns (len s)); [lia|].
          eapply swp_apply; [apply (swp_ins_calm kd _ ok LW s v 0); [lia|exact Hc]|lia|unfold cInsC; lia|auto|auto|].
          cbv beta. auto.
        * eapply swp_apply; [apply (swp_small_calm kd tn ok LW bal HIns HRec Hbal s v); [lia|exact Hb|exact Hc]|lia|lia|auto|auto|].
          cbv beta. auto.
    - unfold QM. cbn [md setval]. intros _ m v' _ _ _. destruct md0; try contradiction; auto. }
  apply wp_bind. rewrite (minConc_plain kd tn HIns HRec HRec2). destruct (Z.ltb_spec (len s) (2 * (maxRec + 1))) as [C|C].
  - apply wp_ret. apply Hseq. lia.
  - destruct Hmd as [->|[_ Hmd]]; [|lia].
    apply wp_loadmax; [lia|exact I|]. intros mg Hmg. apply wp_ret. cbn [setseen dom rd val md seen].
    destruct (Z.leb_spec mg 1) as [Cm|Cm].
    + apply Hseq. lia.
    + eapply wp_more; [apply (wp_sortConc_calm X s v mg HX C Hb Hc Cm HDm)|lia|lia|].
      intros [] m g' _ Hq. exact Hq.
Qed.

End Sort.
