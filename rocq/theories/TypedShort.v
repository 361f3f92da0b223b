(** * The sequential part of the typed sorters: shortX, and longX without syncVar *)

From Coq Require Import List ZArith Lia Bool Permutation.
From Verif Require Import Lang SeqLogic Base Scalar Typed SeqOps ScalarFacts TypedPart TypedPivot.
Import ListNotations.
Open Scope Z_scope.

Local Arguments Z.mul : simpl never.
Local Arguments Z.add : simpl never.
Local Arguments Z.sub : simpl never.
Local Arguments Z.pow : simpl never.

Lemma log2_half x m : 1 <= x -> 2 * x <= m -> Z.log2 x + 1 <= Z.log2 m.
Proof.
  intros Hx Hm. rewrite <- Z.add_1_r || idtac. 
  assert (E := Z.log2_double x ltac:(lia)). rewrite <- Z.add_1_r in E || idtac.
  assert (H := Z.log2_le_mono (2 * x) m Hm). lia.
Qed.

(** The two ranges of a split at [k]: (aq, ar), aq the shorter one. *)
Definition isSplit (s : slice) (k : Z) (aq ar : slice) : Prop :=
  (off aq = off s /\ len aq = k /\ off ar = off s + k /\ len ar = len s - k \/
   off ar = off s /\ len ar = k /\ off aq = off s + k /\ len aq = len s - k) /\
  len aq <= len ar.

Definition cSort (m : Z) : Z := 100 * m * m.

Lemma isSplit_reg s k aq ar : 1 <= k <= len s - 1 -> isSplit s k aq ar ->
  (forall i, reg aq i -> reg s i) /\ (forall i, reg ar i -> reg s i) /\
  (forall i, reg aq i -> ~ reg ar i) /\ 1 <= len aq /\ 1 <= len ar /\ len aq + len ar = len s /\
  len aq <= len ar /\ off ar <> off aq.
Proof. intros Hk [H1 H2]. unfold reg. repeat split; intros; lia. Qed.

Lemma cSort_join a b m X : 1 <= a -> 1 <= b -> a + b = m -> 9 <= m -> X <= 100 * m + 500 ->
  cSort a + cSort b + X <= cSort m.
Proof.
  intros. unfold cSort. assert (a + b - 1 <= a * b) by nia. subst m.
  replace (100 * (a + b) * (a + b)) with (100 * a * a + 100 * b * b + 200 * (a * b)) by ring. lia.
Qed.

Lemma cIns_cSort a : 1 <= a -> cIns a <= cSort a.
Proof. intros. unfold cIns, cSort. nia. Qed.

Lemma cIns_pos a : 0 <= a -> 0 <= cIns a.
Proof. intros. unfold cIns. nia. Qed.

Lemma cSort_pos a : 0 <= cSort a.
Proof. unfold cSort. nia. Qed.

Section Short.
Context {Wd : word}.
Context {T K : Type}.
Variable kd : kind T K.
Variable tn : tuning.
Variable meanI : Z -> Z -> Z.
Variable ok : K -> Prop.
Hypothesis LW : laws kd ok.

Definition maxIns : Z := if fc kd then maxLenInsFC tn else maxLenIns tn.
Definition maxRec : Z := if fc kd then maxLenRecFC tn else maxLenRec tn.
Hypothesis HIns : 9 <= maxIns.
Hypothesis HRec : 2 * maxIns < maxRec.

Notation swp := (swp (body kd tn)).
Let okT (x : T) : Prop := ok (key kd x).

Lemma okT_asym x y : okT x -> okT y -> ltT kd x y = true -> ltT kd y x = false.
Proof. intros. apply (law_asym _ _ LW); assumption. Qed.

Lemma okT_trans x y z : okT x -> okT y -> okT z ->
  ltT kd y x = false -> ltT kd z y = false -> ltT kd z x = false.
Proof.
  unfold ltT. intros Hx Hy Hz H1 H2. apply (le_nlt kd ok LW); auto.
  apply (law_trans _ _ LW _ (key kd y)); auto; apply (nlt_le kd ok LW); auto.
Qed.

Definition okOn (s : slice) (v : Z -> T) : Prop := forall i, reg s i -> okT (v i).

(** [v'] is [v] sorted on the cells of [s]. *)
Definition sortedP (s : slice) (v v' : Z -> T) : Prop :=
  permR (off s) (off s + len s) v v' /\ ascending (ltT kd) (off s) (off s + len s) v'.

Lemma okOn_perm s v v' : okOn s v -> permR (off s) (off s + len s) v v' -> okOn s v'.
Proof. intros H Hp. unfold okOn, reg in *. eapply permR_forall; eassumption. Qed.

Lemma swp_split D n (Rd Wr : Z -> Prop) (Q : slice * slice -> nat -> (Z -> T) -> Prop) s k v :
  0 <= k <= len s ->
  (forall aq ar, isSplit s k aq ar -> Q (aq, ar) n v) ->
  swp D n Rd Wr Q (split s k) v.
Proof.
  intros Hk HQ. unfold split. destruct (Z.ltb_spec k (len s - k)) as [C|C].
  - apply swp_bind, swp_reslice; [lia|lia|lia|]. apply swp_bind, swp_reslice; [lia|lia|lia|].
    apply swp_ret, HQ. split; simpl; lia.
  - apply swp_bind, swp_reslice; [lia|lia|lia|]. apply swp_bind, swp_reslice; [lia|lia|lia|].
    apply swp_ret, HQ. split; simpl; lia.
Qed.

(** After a partition: everything left of [k] <= pv <= everything right of it. *)
Definition parted (s : slice) (k : Z) (v0 v : Z -> T) : Prop :=
  1 <= k <= len s - 1 /\ permR (off s) (off s + len s) v0 v /\
  exists pv, ok pv /\
    (forall i, 0 <= i < k -> Lo kd pv (v (off s + i))) /\
    (forall i, k <= i < len s -> Hi kd pv (v (off s + i))).

(** Sorting both ranges of a partition sorts the whole. *)
Lemma sortedP_join s k aq ar v0 v1 v2 :
  okOn s v0 -> parted s k v0 v1 -> isSplit s k aq ar ->
  sortedP aq v1 v2 -> sortedP ar v1 v2 -> sortedP s v0 v2.
Proof.
  intros Hok (Hk & Hp & pv & Hpv & HL & HH) [Hs _] S1 S2.
  set (o := off s) in *.
  assert (G : sortedP (Slice o k) v1 v2 /\ sortedP (Slice (o + k) (len s - k)) v1 v2).
  { destruct aq as [oq lq], ar as [oa la]; simpl in *. fold o in Hs.
    destruct Hs as [(-> & -> & -> & ->)|(-> & -> & -> & ->)]; auto. }
  clear S1 S2 Hs. destruct G as [[P1 A1] [P2 A2]]. simpl in *.
  replace (o + k + (len s - k)) with (o + len s) in * by lia.
  assert (Hok1 := okOn_perm s v0 v1 Hok Hp).
  assert (HL2 : forall i, o <= i < o + k -> okT (v2 i) /\ Lo kd pv (v2 i)).
  { apply (permR_forall o (o + k) v1 v2 (fun x => okT x /\ Lo kd pv x) P1).
    intros i Hi. split; [apply Hok1; unfold reg; fold o; lia|].
    replace i with (o + (i - o)) by lia. apply HL; lia. }
  assert (HH2 : forall i, o + k <= i < o + len s -> okT (v2 i) /\ Hi kd pv (v2 i)).
  { apply (permR_forall (o + k) (o + len s) v1 v2 (fun x => okT x /\ Hi kd pv x) P2).
    intros i Hi. split; [apply Hok1; unfold reg; fold o; lia|].
    replace i with (o + (i - o)) by lia. apply HH; lia. }
  split.
  - eapply permR_trans; [exact Hp|]. fold o. apply (permR_app o (o + k)); [lia|exact P1|exact P2].
  - fold o. intros i j Hi Hij Hj.
    destruct (Z.lt_ge_cases j (o + k)); [apply A1; lia|].
    destruct (Z.lt_ge_cases i (o + k)); [|apply A2; lia].
    destruct (HL2 i ltac:(lia)) as [Hi1 Hi2]. destruct (HH2 j ltac:(lia)) as [Hj1 Hj2].
    apply (le_nlt kd ok LW); auto. apply (law_trans _ _ LW _ pv); auto.
Qed.

(** partOne with a proper pivot splits properly. *)
Lemma swp_partOne_proper s pv v D :
  properPivot kd ok s v pv -> okOn s v ->
  swp D (Z.to_nat (cPart (len s))) (reg s) (reg s) (fun k _ v' => parted s k v v')
    (partOne kd s pv) v.
Proof.
  intros (Hpv & (i & Hi & HiL) & (j & Hj & HjH)) Hok.
  eapply swp_conseq; [apply (swp_partOne kd _ ok LW pv Hpv s); [lia|]|].
  { intros x Hx. apply Hok. unfold reg; lia. }
  intros k m v' _ (H1 & H2 & H3 & H4 & H5 & H6). split; [|split; [exact H2|]].
  - split.
    + destruct (Z.eq_dec k 0) as [->|]; [|lia]. exfalso. destruct (H5 eq_refl) as [E S].
      specialize (S i ltac:(lia)). rewrite (E i ltac:(lia)) in S.
      eapply (sHi_nLo kd ok LW pv Hpv); [|exact S|exact HiL]. apply Hok. unfold reg; lia.
    + destruct (Z.eq_dec k (len s)) as [->|]; [|lia]. exfalso. destruct (H6 eq_refl) as [E S].
      specialize (S j ltac:(lia)). rewrite (E j ltac:(lia)) in S.
      eapply (sLo_nHi kd ok LW pv Hpv); [|exact S|exact HjH]. apply Hok. unfold reg; lia.
  - exists pv. auto.
Qed.

Lemma swp_ins s v D : 0 <= len s -> okOn s v ->
  swp D (Z.to_nat (cIns (len s))) (reg s) (reg s)
    (fun _ _ v' => sortedP s v v') (insertion (ltT kd) s) v.
Proof.
  intros Hl Hok. eapply swp_conseq.
  { apply (swp_insertion _ (ltT kd) okT okT_asym okT_trans s v D Hl).
    intros i Hi. apply Hok. exact Hi. }
  cbv beta. intros _ m v' _ [H1 H2]. split; [|exact H2].
  apply permR_seg. eapply bubble_perm. exact H1.
Qed.

(** Sorting view [w] of [s], where [w] only differs from [v] elsewhere. *)
Lemma sortedP_ext s v v' w w' :
  sortedP s v v' -> (forall i, reg s i -> w i = v i) -> (forall i, reg s i -> w' i = v' i) ->
  sortedP s w w'.
Proof.
  intros [H1 H2] E E'. split.
  - apply permR_seg. rewrite (seg_ext w v), (seg_ext w' v') by assumption. exact H1.
  - intros i j Hi Hij Hj. rewrite !E' by (unfold reg; lia). apply H2; lia.
Qed.

Lemma okOn_ext s v w : okOn s v -> (forall i, reg s i -> w i = v i) -> okOn s w.
Proof. intros H E i Hi. rewrite E by exact Hi. apply H; exact Hi. Qed.

Lemma okOn_sub s s' v : okOn s v -> (forall i, reg s' i -> reg s i) -> okOn s' v.
Proof. intros H E i Hi. apply H, E, Hi. Qed.

(** The loop body of shortX. *)
Definition shortBody : slice + slice * slice -> cmd (proc K) T ((slice + slice * slice) + unit) :=
  (fun st =>
    match st with
    | inl ar =>
        pv <- pivotShort kd ar ;;
        k <- partOne kd ar pv ;;
        '(aq, ar) <- split ar k ;;
        if maxIns <? len aq then
          Call (PShort aq) (Ret tt) ;;; goto (inl ar)
        else goto (inr (ar, aq))
    | inr (ar, aq) =>
        insertion (ltT kd) aq ;;;
        if maxIns <? len ar then goto (inl ar)
        else if (0 <? len ar) && (0 <? len aq) then
          if off ar =? off aq then done tt else goto (inr (ar, ar))
        else Panic
    end)%cmd.

Lemma short_unfold s : short kd tn s = Loop (inl s) shortBody.
Proof. reflexivity. Qed.

Lemma swp_short_gen : forall N s v,
  len s <= N -> maxIns < len s -> len s < 2 * wq -> okOn s v ->
  swp (Z.to_nat (Z.log2 (len s))) (Z.to_nat (cSort (len s))) (reg s) (reg s)
    (fun _ _ v' => sortedP s v v') (Loop (inl s) shortBody) v.
Proof.
  intro N. induction (Z.lt_wf 0 N) as [N _ IH]. intros s v HN Hs Hb Hok.
  assert (C1 := cSort_pos (len s)).
  assert (Cm : 100 * 10 * len s <= cSort (len s)) by (unfold cSort; nia).
  apply swp_loop; [lia|]. unfold shortBody at 1.
  apply swp_bind. eapply swp_apply;
    [apply (swp_pivotShort kd _ ok LW s v 0); [lia|lia|intros; apply Hok; unfold reg; lia]
    |lia|lia|auto|intros ? []|].
  cbv beta. intros pv n1 v1 [-> Hpiv] _ Hn1.
  apply swp_bind. eapply swp_apply;
    [apply (swp_partOne_proper s pv v 0 Hpiv Hok)|lia|unfold cPart; lia|auto|auto|].
  cbv beta. intros k n2 v1 Hpart Hf1 Hn2.
  assert (Hk : 1 <= k <= len s - 1) by apply Hpart.
  apply swp_bind, swp_split; [lia|]. intros aq ar Hsp.
  destruct (isSplit_reg s k aq ar Hk Hsp) as (Raq & Rar & Rdis & Haq & Har & Hsum & Hle & Hoff).
  assert (Hok1 : okOn s v1) by (eapply okOn_perm; [exact Hok|apply Hpart]).
  assert (Lq := log2_half (len aq) (len s) Haq ltac:(lia)).
  assert (La : Z.log2 (len ar) <= Z.log2 (len s)) by (apply Z.log2_le_mono; lia).
  assert (Lq0 := Z.log2_nonneg (len aq)). assert (La0 := Z.log2_nonneg (len ar)).
  assert (Cj := cSort_join (len aq) (len ar) (len s) (100 * len s + 500) Haq Har Hsum ltac:(lia) ltac:(lia)).
  assert (Cq0 := cSort_pos (len aq)). assert (Ca0 := cSort_pos (len ar)).
  assert (Cq := cIns_cSort (len aq) Haq). assert (Ca := cIns_cSort (len ar) Har).
  assert (Cq1 := cIns_pos (len aq) ltac:(lia)). assert (Ca1 := cIns_pos (len ar) ltac:(lia)).
  assert (Hn2' : cSort (len aq) + cSort (len ar) + 100 <= Z.of_nat n2) by (unfold cPart in *; lia).
  destruct (Z.ltb_spec maxIns (len aq)) as [Cc|Cc].
  - (* recurse on the shorter range *)
    replace (Z.to_nat (Z.log2 (len s))) with (S (Z.to_nat (Z.log2 (len s) - 1))) by lia.
    apply swp_bind, swp_call; [lia|]. cbn [body]. rewrite short_unfold.
    eapply swp_apply; [apply (IH (len aq)); [lia|lia|lia|lia|eapply okOn_sub; [exact Hok1|exact Raq]]
                      |lia|lia|exact Raq|exact Raq|].
    cbv beta. intros _ n3 v2 Hsq Hf2 Hn3. split; [lia|]. apply swp_ret, swp_ret.
    assert (E12 : forall i, reg ar i -> v2 i = v1 i).
    { intros i Hi. apply Hf2. intro Hq. exact (Rdis i Hq Hi). }
    eapply swp_apply; [apply (IH (len ar)); [lia|lia|lia|lia|]
                      |lia|lia|exact Rar|exact Rar|].
    { eapply okOn_ext; [eapply okOn_sub; [exact Hok1|exact Rar]|exact E12]. }
    cbv beta. intros _ n4 v3 Hsa Hf3 Hn4.
    apply (sortedP_join s k aq ar v v1 v3 Hok Hpart Hsp).
    + eapply sortedP_ext; [exact Hsq|auto|]. intros i Hi. apply Hf3. intro Ha. exact (Rdis i Hi Ha).
    + eapply sortedP_ext; [exact Hsa| |auto]. intros i Hi. symmetry. apply E12; exact Hi.
  - apply swp_ret. apply swp_loop; [lia|]. cbn [shortBody].
    apply swp_bind. eapply swp_apply;
      [apply (swp_ins aq v1 0); [lia|eapply okOn_sub; [exact Hok1|exact Raq]]|lia|lia|exact Raq|exact Raq|].
    cbv beta. intros _ n3 v2 Hsq Hf2 Hn3.
    assert (E12 : forall i, reg ar i -> v2 i = v1 i).
    { intros i Hi. apply Hf2. intro Hq. exact (Rdis i Hq Hi). }
    assert (Hokar : okOn ar v2).
    { eapply okOn_ext; [eapply okOn_sub; [exact Hok1|exact Rar]|exact E12]. }
    assert (Hfin : forall v3, sortedP ar v2 v3 -> (forall i, ~ reg ar i -> v3 i = v2 i) -> sortedP s v v3).
    { intros v3 Hsa Hf3. apply (sortedP_join s k aq ar v v1 v3 Hok Hpart Hsp).
      - eapply sortedP_ext; [exact Hsq|auto|]. intros i Hi. apply Hf3. intro Ha. exact (Rdis i Hi Ha).
      - eapply sortedP_ext; [exact Hsa| |auto]. intros i Hi. symmetry. apply E12; exact Hi. }
    destruct (Z.ltb_spec maxIns (len ar)) as [Cr|Cr].
    + apply swp_ret. eapply swp_apply; [apply (IH (len ar)); [lia|lia|lia|lia|exact Hokar]
                      |lia|lia|exact Rar|exact Rar|].
      cbv beta. intros _ n4 v3 Hsa Hf3 Hn4. apply Hfin; assumption.
    + destruct (Z.ltb_spec 0 (len ar)); [|lia]. destruct (Z.ltb_spec 0 (len aq)); [|lia]. cbn [andb].
      destruct (Z.eqb_spec (off ar) (off aq)) as [Eo|_]; [exfalso; exact (Hoff Eo)|].
      apply swp_ret. apply swp_loop; [lia|]. cbn [shortBody].
      apply swp_bind. eapply swp_apply;
        [apply (swp_ins ar v2 0); [lia|exact Hokar]|lia|lia|exact Rar|exact Rar|].
      cbv beta. intros _ n4 v3 Hsa Hf3 Hn4.
      destruct (Z.ltb_spec maxIns (len ar)); [lia|].
      destruct (Z.ltb_spec 0 (len ar)); [|lia]. cbn [andb].
      rewrite Z.eqb_refl. apply swp_ret. apply Hfin; assumption.
Qed.

Lemma swp_short s v :
  maxIns < len s -> len s < 2 * wq -> okOn s v ->
  swp (Z.to_nat (Z.log2 (len s))) (Z.to_nat (cSort (len s))) (reg s) (reg s)
    (fun _ _ v' => sortedP s v v') (short kd tn s) v.
Proof. intros. rewrite short_unfold. eapply swp_short_gen; [apply Z.le_refl|assumption..]. Qed.

End Short.
