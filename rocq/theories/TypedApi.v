(** * The ten sorters as called by SortSlice and SortLen *)

From Coq Require Import List ZArith Lia Bool Permutation Sorted.
From Verif Require Import Lang SeqLogic Yields ConcLogic Base Scalar Typed SeqOps ScalarFacts TypedPart
  TypedShort ConcSort TypedLong TypedSort Kinds Spec KindsFacts.
Import ListNotations.
Open Scope Z_scope.
Local Arguments Z.mul : simpl never.
Local Arguments Z.add : simpl never.
Local Arguments Z.sub : simpl never.
Local Arguments Z.pow : simpl never.

(** ** Lists and memory *)

Lemma contents_seg {T} (w : Z -> T) s : contents w s = seg w (off s) (off s + len s).
Proof.
  unfold contents, seg, zrange. rewrite map_map.
  replace (off s + len s - off s) with (len s) by lia. reflexivity.
Qed.

Lemma contents_forall {T} (w : Z -> T) s (X : T -> Prop) :
  Forall X (contents w s) <-> forall i, cellsOf s i -> X (w i).
Proof.
  rewrite contents_seg, Forall_forall. split.
  - intros H i Hi. apply H. apply In_seg. exists i. split; [exact Hi|reflexivity].
  - intros H x Hx. apply In_seg in Hx. destruct Hx as (i & Hi & <-). auto.
Qed.

Lemma contents_ext {T} (v w : Z -> T) s : (forall i, cellsOf s i -> v i = w i) -> contents v s = contents w s.
Proof. intro H. rewrite !contents_seg. apply seg_ext. exact H. Qed.

Lemma contents_split {T} (w : Z -> T) s k : 0 <= k <= len s ->
  contents w s = contents w (Slice (off s) k) ++ contents w (Slice (off s + k) (len s - k)).
Proof.
  intro H. rewrite !contents_seg. cbn [off len]. rewrite seg_app by lia. f_equal. lia.
Qed.

Lemma ascending_sorted {T} (R : T -> T -> Prop) (v : Z -> T) a b :
  (forall i j, a <= i -> i < j -> j < b -> R (v i) (v j)) -> StronglySorted R (seg v a b).
Proof.
  intro H. remember (Z.to_nat (b - a)) as n eqn:En. revert a H En.
  induction n as [|n IH]; intros a H En; unfold seg.
  - rewrite zrange_nil by lia. constructor.
  - rewrite zrange_cons by lia. simpl. constructor.
    + apply IH; [|lia]. intros; apply H; lia.
    + rewrite Forall_forall. intros x Hx. apply In_seg in Hx. destruct Hx as (i & Hi & <-). apply H; lia.
Qed.

Lemma sorted_ascending {T} (R : T -> T -> Prop) (v : Z -> T) a b :
  StronglySorted R (seg v a b) -> forall i j, a <= i -> i < j -> j < b -> R (v i) (v j).
Proof.
  remember (Z.to_nat (b - a)) as n eqn:En. revert a En.
  induction n as [|n IH]; intros a En H i j Hi Hij Hj; [lia|].
  unfold seg in H. rewrite zrange_cons in H by lia. simpl in H. inversion H as [|? ? H1 H2]; subst.
  destruct (Z.eq_dec i a) as [->|].
  - rewrite Forall_forall in H2. apply H2. apply In_seg. exists j. split; [lia|reflexivity].
  - apply (IH (a + 1)); auto; lia.
Qed.

(** ** NaN pre-pass *)

Section Pre.
Context {P T : Type}.
Variable body : P -> cmd P T unit.
Variable ne : T -> bool.

Definition prePost (s : slice) (v0 : Z -> T) (s' : slice) (v : Z -> T) : Prop :=
  permR (off s) (off s + len s) v0 v /\
  (forall i, reg s' i -> reg s i /\ ne (v i) = false) /\ 0 <= len s' <= len s /\
  (forall i, reg s i -> ~ reg s' i -> ne (v i) = true) /\
  ((forall i, reg s i -> ne (v0 i) = false) -> s' = s /\ forall i, v i = v0 i).

Definition cPre (n : Z) : Z := 6 * (n + 1).

Lemma swp_nanToEnd s v0 D : 0 <= len s ->
  swp body D (Z.to_nat (cPre (len s))) (reg s) (reg s)
    (fun s' _ v => prePost s v0 s' v /\ off s' = off s) (nanToEnd ne s) v0.
Proof.
  intro H0. unfold nanToEnd. apply swp_bind.
  set (o := off s).
  set (Inv := fun (st : Z * Z) (v : Z -> T) => let '(l, h) := st in
    0 <= l <= h + 1 /\ h < len s /\ permR o (o + len s) v0 v /\
    (forall i, 0 <= i < l -> ne (v (o + i)) = false) /\
    (forall i, h < i < len s -> ne (v (o + i)) = true) /\
    ((forall i, reg s i -> ne (v0 i) = false) -> h = len s - 1 /\ forall i, v i = v0 i)).
  eapply swp_conseq.
  - apply (swp_loop_var body D 5 (reg s) (reg s) Inv (fun '(l, h) => h + 1 - l)
      (fun h v => Inv (h + 1, h) v)).
    + intros [l h] v (Hl & Hh & Hp & Hlo & Hhi & Hno).
      destruct (Z.leb_spec l h) as [C|C].
      * apply swp_bind. apply swp_sget; [lia|lia|unfold reg, o in *; lia|]. fold o.
        destruct (ne (v (o + h))) eqn:Ex.
        -- apply swp_ret. split; [|lia]. split; [lia|]. split; [lia|]. split; [exact Hp|].
           split; [exact Hlo|]. split.
           ++ intros i Hi. destruct (Z.eq_dec i h) as [->|]; [exact Ex|apply Hhi; lia].
           ++ intro Hn. exfalso. destruct (Hno Hn) as [-> Hv]. rewrite Hv, Hn in Ex; [discriminate|].
              unfold reg, o. lia.
        -- apply swp_bind. apply swp_sget; [lia|lia|unfold reg, o in *; lia|]. fold o.
           destruct (ne (v (o + l))) eqn:Ey.
           ++ assert (l <> h) by (intro; subst; congruence).
              apply swp_bind. apply swp_sset; [lia|lia|unfold reg, o in *; lia|].
              apply swp_bind. apply swp_sset; [lia|lia|unfold reg, o in *; lia|]. fold o.
              change (upd (upd v (o + l) (v (o + h))) (o + h) (v (o + l))) with (swapv v (o + l) (o + h)).
              apply swp_ret. split; [|lia]. split; [lia|]. split; [lia|].
              split; [eapply permR_trans; [exact Hp|apply permR_swap; lia]|].
              split; [|split].
              ** intros i Hi. destruct (Z.eq_dec i l) as [->|]; [rewrite swapv_l; exact Ex|].
                 rewrite swapv_o by lia. apply Hlo; lia.
              ** intros i Hi. destruct (Z.eq_dec i h) as [->|]; [rewrite swapv_r; exact Ey|].
                 rewrite swapv_o by lia. apply Hhi; lia.
              ** intro Hn. exfalso. destruct (Hno Hn) as [_ Hv]. rewrite Hv, Hn in Ey; [discriminate|].
                 unfold reg, o. lia.
           ++ apply swp_ret. split; [|lia]. split; [lia|]. split; [lia|]. split; [exact Hp|].
              split; [|split; [exact Hhi|exact Hno]].
              intros i Hi. destruct (Z.eq_dec i l) as [->|]; [exact Ey|apply Hlo; lia].
      * apply swp_ret. assert (l = h + 1) by lia. subst l. split; [lia|]. split; [lia|]. auto.
    + split; [lia|]. split; [lia|]. split; [apply permR_refl|]. split; [intros; lia|]. split; [intros; lia|]. auto.
    + simpl. lia.
    + unfold cPre. simpl. lia.
  - cbv beta. intros h m v _ (Hl & Hh & Hp & Hlo & Hhi & Hno).
    apply swp_reslice; [lia|lia|lia|]. split; [|simpl; lia].
    unfold prePost. cbn [off len]. fold o. split; [exact Hp|]. split.
    + intros i Hi. unfold reg in *; cbn [off len] in *. fold o in Hi |- *. split; [lia|].
      replace i with (o + (i - o)) by lia. apply Hlo. lia.
    + split; [lia|]. split.
      * intros i Hi Hn. unfold reg in *; cbn [off len] in *. fold o in Hi, Hn.
        replace i with (o + (i - o)) by lia. apply Hhi. lia.
      * intro Hn. destruct (Hno Hn) as [-> Hv]. split; [|exact Hv]. destruct s; cbn in *. f_equal; unfold o; lia.
Qed.

Lemma swp_nanToStart s v0 D : 0 <= len s ->
  swp body D (Z.to_nat (cPre (len s))) (reg s) (reg s)
    (fun s' _ v => prePost s v0 s' v /\ off s' + len s' = off s + len s) (nanToStart ne s) v0.
Proof.
  intro H0. unfold nanToStart. apply swp_bind.
  set (o := off s).
  set (Inv := fun (st : Z * Z) (v : Z -> T) => let '(l, h) := st in
    0 <= l <= h + 1 /\ h < len s /\ permR o (o + len s) v0 v /\
    (forall i, 0 <= i < l -> ne (v (o + i)) = true) /\
    (forall i, h < i < len s -> ne (v (o + i)) = false) /\
    ((forall i, reg s i -> ne (v0 i) = false) -> l = 0 /\ forall i, v i = v0 i)).
  eapply swp_conseq.
  - apply (swp_loop_var body D 5 (reg s) (reg s) Inv (fun '(l, h) => h + 1 - l)
      (fun l v => Inv (l, l - 1) v)).
    + intros [l h] v (Hl & Hh & Hp & Hlo & Hhi & Hno).
      destruct (Z.leb_spec l h) as [C|C].
      * apply swp_bind. apply swp_sget; [lia|lia|unfold reg, o in *; lia|]. fold o.
        destruct (ne (v (o + l))) eqn:Ey.
        -- apply swp_ret. split; [|lia]. split; [lia|]. split; [lia|]. split; [exact Hp|].
           split; [|split; [exact Hhi|]].
           ++ intros i Hi. destruct (Z.eq_dec i l) as [->|]; [exact Ey|apply Hlo; lia].
           ++ intro Hn. exfalso. destruct (Hno Hn) as [-> Hv]. rewrite Hv, Hn in Ey; [discriminate|].
              unfold reg, o. lia.
        -- apply swp_bind. apply swp_sget; [lia|lia|unfold reg, o in *; lia|]. fold o.
           destruct (ne (v (o + h))) eqn:Ex.
           ++ assert (l <> h) by (intro; subst; congruence).
              apply swp_bind. apply swp_sset; [lia|lia|unfold reg, o in *; lia|].
              apply swp_bind. apply swp_sset; [lia|lia|unfold reg, o in *; lia|]. fold o.
              change (upd (upd v (o + l) (v (o + h))) (o + h) (v (o + l))) with (swapv v (o + l) (o + h)).
              apply swp_ret. split; [|lia]. split; [lia|]. split; [lia|].
              split; [eapply permR_trans; [exact Hp|apply permR_swap; lia]|].
              split; [|split].
              ** intros i Hi. destruct (Z.eq_dec i l) as [->|]; [rewrite swapv_l; exact Ex|].
                 rewrite swapv_o by lia. apply Hlo; lia.
              ** intros i Hi. destruct (Z.eq_dec i h) as [->|]; [rewrite swapv_r; exact Ey|].
                 rewrite swapv_o by lia. apply Hhi; lia.
              ** intro Hn. exfalso. destruct (Hno Hn) as [_ Hv]. rewrite Hv, Hn in Ex; [discriminate|].
                 unfold reg, o. lia.
           ++ apply swp_ret. split; [|lia]. split; [lia|]. split; [lia|]. split; [exact Hp|].
              split; [exact Hlo|]. split; [|exact Hno].
              intros i Hi. destruct (Z.eq_dec i h) as [->|]; [exact Ex|apply Hhi; lia].
      * apply swp_ret. assert (h = l - 1) by lia. subst h. split; [lia|]. split; [lia|]. auto.
    + split; [lia|]. split; [lia|]. split; [apply permR_refl|]. split; [intros; lia|]. split; [intros; lia|]. auto.
    + simpl. lia.
    + unfold cPre. simpl. lia.
  - cbv beta. intros l m v _ (Hl & Hh & Hp & Hlo & Hhi & Hno).
    apply swp_reslice; [lia|lia|lia|]. split; [|simpl; lia].
    unfold prePost. cbn [off len]. fold o. split; [exact Hp|]. split.
    + intros i Hi. unfold reg in *; cbn [off len] in *. fold o in Hi |- *. split; [lia|].
      replace i with (o + (i - o)) by lia. apply Hhi. lia.
    + split; [lia|]. split.
      * intros i Hi Hn. unfold reg in *; cbn [off len] in *. fold o in Hi, Hn.
        replace i with (o + (i - o)) by lia. apply Hlo. lia.
      * intro Hn. destruct (Hno Hn) as [-> Hv]. split; [|exact Hv]. destruct s; cbn in *. f_equal; unfold o; lia.
Qed.

(** Both options, and the result for any other option on NaN-free input. *)
Lemma swp_prepass opt s v0 D : 0 <= len s ->
  opt = 1 \/ opt = -1 \/ (forall i, reg s i -> ne (v0 i) = false) ->
  swp body D (Z.to_nat (cPre (len s))) (reg s) (reg s)
    (fun s' _ v => prePost s v0 s' v /\
       (opt = 1 -> off s' = off s) /\ (opt = -1 -> off s' + len s' = off s + len s))
    (prepass ne opt opt s) v0.
Proof.
  intros H0 Hopt. unfold prepass, NaNlarge, NaNsmall. destruct (Z.eqb_spec opt 1) as [->|N1].
  - eapply swp_conseq; [apply swp_nanToEnd; exact H0|]. cbv beta. intros s' m v _ [H1 H2].
    split; [exact H1|]. split; [auto|lia].
  - destruct (Z.eqb_spec opt (-1)) as [->|N2].
    + eapply swp_conseq; [apply swp_nanToStart; exact H0|]. cbv beta. intros s' m v _ [H1 H2].
      split; [exact H1|]. split; [lia|auto].
    + assert (Hn : forall i, reg s i -> ne (v0 i) = false) by tauto.
      apply swp_ret. split; [|lia]. split; [apply permR_refl|]. split; [auto|]. split; [lia|]. split; [tauto|]. auto.
Qed.

End Pre.

(** ** Tuning *)

Lemma init_exact pl mg tn : platOk pl -> 2 * maxLenIns tn < intSize pl -> 2 * (maxLenRec tn + 1) < intSize pl ->
  (initOk pl mg tn = true <-> 0 < mg < 4097 /\ tuningOk pl tn).
Proof.
  intros (H0 & _) H1 H2. assert (HI := intSize_eq pl). assert (HW := intSize_wq pl H0).
  unfold initOk, tuningOk, nsShort. rewrite !andb_true_iff, !Z.ltb_lt. split.
  - intro H. assert (E : @iw (pword pl) (2 * maxLenIns tn) = 2 * maxLenIns tn) by (apply iw_small; lia). rewrite E in H. lia.
  - intros (H & H3 & H4 & H5 & H6 & H7).
    assert (E : @iw (pword pl) (2 * maxLenIns tn) = 2 * maxLenIns tn) by (apply iw_small; lia). rewrite E. lia.
Qed.

Lemma tuning_ins {T K pl} (kd : kind T K) tn : tuningOk pl tn -> 9 <= maxIns kd tn.
Proof.
  intros (H1 & H2 & H3 & H4 & H5). unfold maxIns. destruct (fc kd); lia.
Qed.

Lemma tuning_rec {T K pl} (kd : kind T K) tn : tuningOk pl tn -> 2 * maxIns kd tn < maxRec kd tn.
Proof.
  intros (H1 & H2 & H3 & H4 & H5). unfold maxIns, maxRec. destruct (fc kd); lia.
Qed.

Lemma tuning_rec2 {T K pl} (kd : kind T K) tn : tuningOk pl tn -> maxRec kd tn < @wq (pword pl) - 1.
Proof.
  intros (H1 & H2 & H3 & H4 & H5). assert (HI := intSize_eq pl). unfold maxRec. destruct (fc kd); lia.
Qed.

(** ** The whole sorters *)

Lemma nonfloat_nan e x : isFloat e = false -> ~ nan e x.
Proof. destruct e; simpl; try discriminate; tauto. Qed.

Section Api.
Variable pl : plat.
Hypothesis Hpl : platOk pl.
Variable tn : tuning.
Hypothesis Htn : tuningOk pl tn.
Variable e : ety.
Notation kd := (kindOf pl e).
Notation LW := (laws_all pl e Hpl).
Notation HIns := (tuning_ins kd tn Htn).
Notation HRec := (tuning_rec kd tn Htn).
Notation HRec2 := (tuning_rec2 kd tn Htn).

(** What the sorters promise. *)
Definition sortPost (opt : Z) (s : slice) (v w : Z -> elem e) : Prop :=
  Permutation (contents w s) (contents v s) /\ inOrder e opt (contents w s).

Definition sortSteps (n : Z) : Z := 100 * n * n + 6 * n + 20.

Lemma sortedP_le s v w : (forall i, reg s i -> wellTyped pl e (v i) /\ ~ nan e (v i)) ->
  sortedP kd s v w -> StronglySorted (le e) (contents w s).
Proof.
  intros Hv [Hp Ha]. rewrite contents_seg. apply ascending_sorted. intros i j Hi Hij Hj.
  assert (Hw : forall i, reg s i -> wellTyped pl e (w i) /\ ~ nan e (w i)).
  { apply (permR_forall _ _ _ _ (fun x => wellTyped pl e x /\ ~ nan e x) Hp). exact Hv. }
  destruct (Hw i) as [W1 N1]; [unfold reg; lia|]. destruct (Hw j) as [W2 N2]; [unfold reg; lia|].
  apply (le_leb pl e); auto. rewrite (law_le _ _ LW); [|apply okKey_of; auto..].
  specialize (Ha i j Hi Hij Hj). unfold ltT in Ha. rewrite Ha. reflexivity.
Qed.

Lemma order_pre opt s v0 s' v w :
  (forall i, reg s i -> wellTyped pl e (v0 i)) ->
  prePost (selfNe e) s v0 s' v ->
  (opt = 1 -> off s' = off s) -> (opt = -1 -> off s' + len s' = off s + len s) ->
  0 <= len s ->
  sortedX kd (reg s) s' v w -> sortPost opt s v0 w.
Proof.
  intros Hty (Hp & Hin & Hlen & Hout & _) Ho1 Ho2 H0 [Hs Hf].
  assert (Hv : forall i, reg s i -> wellTyped pl e (v i)) by (apply (permR_forall _ _ _ _ (wellTyped pl e) Hp); exact Hty).
  assert (Hsub : 0 < len s' -> off s <= off s' /\ off s' + len s' <= off s + len s).
  { intro Hl. destruct (Hin (off s')) as [H1 _]; [unfold reg; lia|].
    destruct (Hin (off s' + len s' - 1)) as [H2 _]; [unfold reg; lia|]. unfold reg in *. lia. }
  (* position of the sorted part *)
  assert (Hk : exists k, 0 <= k /\ k + len s' <= len s /\ (0 < len s' -> off s' = off s + k) /\
     (opt = 1 -> k = 0) /\ (opt = -1 -> k + len s' = len s)).
  { destruct (Z.eq_dec (len s') 0) as [E|E].
    - destruct (Z.eq_dec opt (-1)) as [E1|E1].
      + exists (len s). lia.
      + exists 0. lia.
    - exists (off s' - off s). lia. }
  destruct Hk as (k & Hk0 & Hk1 & Hk2 & Hk3 & Hk4).
  split.
  - rewrite !contents_seg. change (permR (off s) (off s + len s) v0 w).
    eapply permR_trans; [exact Hp|]. destruct (Z.eq_dec (len s') 0) as [E|E].
    + apply permR_ext. intros i Hi. symmetry. apply Hf; [exact Hi|unfold reg; lia].
    + apply (permR_widen (off s') (off s' + len s')); [lia|lia|lia|apply Hs|].
      intros i Hi. symmetry. apply Hf; unfold reg; lia.
  - set (A := Slice (off s) k). set (X := Slice (off s + k) (len s')).
    set (B := Slice (off s + k + len s') (len s - k - len s')).
    assert (EX : contents w X = contents w s').
    { destruct (Z.eq_dec (len s') 0) as [E|E].
      - unfold contents. unfold X. cbn [len]. rewrite E. reflexivity.
      - f_equal. unfold X. rewrite <- Hk2 by lia. destruct s'; reflexivity. }
    assert (Hinr : forall i, reg s' i <-> reg X i /\ 0 < len s').
    { intro i. unfold reg, X. cbn [off len]. split; intro H; [rewrite <- Hk2 by lia; lia|].
      destruct H as [H H1]. rewrite Hk2 by lia. lia. }
    exists (contents w A), (contents w X), (contents w B).
    assert (Hnan : forall i, reg s i -> ~ reg s' i -> nan e (w i)).
    { intros i Hi Hn. rewrite Hf by assumption. apply selfNe_nan. apply Hout; assumption. }
    assert (Hno : forall i, reg s' i -> wellTyped pl e (v i) /\ ~ nan e (v i)).
    { intros i Hi. destruct (Hin i Hi) as [H1 H2]. split; [auto|]. rewrite <- selfNe_nan. congruence. }
    split; [|split; [|split; [|split; [|split; [|split]]]]].
    + rewrite (contents_split w s k) by lia. f_equal. rewrite (contents_split w _ (len s')) by (cbn [len]; lia).
      reflexivity.
    + apply contents_forall. intros i Hi. apply Hnan; unfold A, cellsOf, reg in *; cbn [off len] in *; [lia|].
      intro H. apply Hinr in H. unfold reg, X in H. cbn [off len] in H. lia.
    + rewrite EX. apply contents_forall. intros i Hi.
      apply (permR_forall _ _ _ _ (fun x => ~ nan e x) (proj1 Hs)); [|exact Hi]. intros j Hj. apply Hno. exact Hj.
    + apply contents_forall. intros i Hi. apply Hnan; unfold B, cellsOf, reg in *; cbn [off len] in *; [lia|].
      intro H. apply Hinr in H. unfold reg, X in H. cbn [off len] in H. lia.
    + rewrite EX. eapply sortedP_le; [exact Hno|exact Hs].
    + intro E. unfold contents, A. cbn [len]. rewrite (Hk3 E). reflexivity.
    + intro E. unfold contents, B. cbn [len]. replace (len s - k - len s') with 0 by (specialize (Hk4 E); lia). reflexivity.
Qed.

Lemma inOrder_nonfloat opt l : isFloat e = false -> StronglySorted (le e) l -> inOrder e opt l.
Proof.
  intros Hf H. exists [], l, []. rewrite app_nil_r. repeat split; auto.
  rewrite Forall_forall. intros x _. apply nonfloat_nan; exact Hf.
Qed.

(** The result, exactly: one for each number of rounds. *)
Definition progOut (opt : Z) (s : slice) (v : Z -> elem e) (r : nat) (w : Z -> elem e) : Prop :=
  if isFloat e then
    exists s' v', yields (body kd tn) (reg s) (prepass (selfNe e) opt opt s) v s' v' /\
      mainOut kd tn (mI pl) r s' v' w /\ forall i, reg s i -> ~ reg s' i -> w i = v' i
  else mainOut kd tn (mI pl) r s v w.

Lemma progOut_fun opt s v r w w' : progOut opt s v r w -> progOut opt s v r w' -> forall i, reg s i -> w' i = w i.
Proof.
  unfold progOut. destruct (isFloat e); [|apply mainOut_fun].
  intros (s1 & v1 & Y1 & H1 & F1) (s2 & v2 & Y2 & H2 & F2).
  destruct (yields_fun _ _ _ _ _ _ _ _ _ Y1 Y2) as [-> ->]. intros i Hi. destruct (reg_dec s1 i) as [Hr|Hr].
  - apply (mainOut_fun _ _ _ _ _ _ _ _ H1 H2 i Hr).
  - rewrite F1, F2 by assumption. reflexivity.
Qed.

(** At most so many rounds. *)
Definition roundLimit (n : Z) : Z := Z.max 0 (n - (2 * maxRec kd tn + 1)).

Lemma wp_sortProg opt s v sn0 md0 Dm :
  typedSlice pl e v s -> sortable e opt (contents v s) ->
  md0 = MInit \/ (md0 = MSeq /\ len s < 2 * (maxRec kd tn + 1)) ->
  (Z.to_nat (Z.log2 (len s) + 2) <= Dm)%nat ->
  wp (Gr := typedGrain kd tn) (procs pl tn e) (wpT (Gr := typedGrain kd tn) (procs pl tn e) Dm) (Z.to_nat (Z.log2 (len s) + 2))
    (QM (fun _ w => sortPost opt s v w /\ exists r, Z.of_nat r <= roundLimit (len s) /\ progOut opt s v r w)) (Z.to_nat (sortSteps (len s)))
    (sortProg pl tn opt e s) (Gst (reg s) (reg s) v md0 sn0).
Proof.
  intros [[H0 Hb] Hty] Hsrt Hmd HDm. rewrite (intSize_eq pl) in Hb. unfold sortProg, sortLive, procs.
  rewrite contents_forall in Hty.
  assert (L0 := Z.log2_nonneg (len s)).
  destruct (isFloat e) eqn:Ef.
  - assert (Hlive : live (Gst (reg s) (reg s) v md0 sn0)).
    { unfold live. cbn [md]. destruct Hmd as [->|[-> _]]; exact I. }
    apply wp_bind. eapply wp_sapply with (D1 := O); [typeclasses eauto|exact Hlive|apply swp_exactly, (swp_prepass (body kd tn) (selfNe e) opt s); [exact H0|]
      |lia| |auto|auto|].
    + destruct Hsrt as [->|[->|Hn]]; auto. right; right. rewrite contents_forall in Hn. intros i Hi.
      specialize (Hn i Hi). cbn [val]. rewrite <- selfNe_nan in Hn. destruct (selfNe e (v i)); congruence.
    + unfold sortSteps, cPre. nia.
    + cbv beta. cbn [setval val dom rd md seen]. intros s' n v' [(Hpre & Ho1 & Ho2) Ypre] Hf Hn.
      assert (Hpre' := Hpre). destruct Hpre' as (Hp & Hin & Hlen & Hout & _).
      assert (Hc : cSort (len s') <= cSort (len s)) by (unfold cSort; nia).
      assert (Hl : Z.log2 (len s') <= Z.log2 (len s)) by (apply Z.log2_le_mono; lia).
      assert (Hv : forall i, reg s i -> wellTyped pl e (v' i)) by (apply (permR_forall _ _ _ _ (wellTyped pl e) Hp); exact Hty).
      eapply wp_more.
      * apply (wp_sort kd tn (mI pl) (meanOk_of pl Hpl) (okKey pl e) LW HIns HRec Dm HRec2 (reg s) s' v' sn0 md0).
        -- intros i Hi. apply Hin. exact Hi.
        -- lia.
        -- lia.
        -- intros i Hi. destruct (Hin i Hi) as [Hr Hz]. apply okKey_of; [auto|]. rewrite <- selfNe_nan. congruence.
        -- destruct Hmd as [->|[-> Hmd]]; [auto|right; split; [auto|lia]].
        -- lia.
      * lia.
      * unfold sortSteps, cPre, cSort in *. lia.
      * intros [] m g' _ Hq. unfold QM in *. destruct (md g'); try exact Hq; intros w Hw;
          (destruct (Hq w Hw) as [Hx (r & Hr & Ho)]; split;
           [eapply order_pre; [exact Hty|exact Hpre|exact Ho1|exact Ho2|exact H0|exact Hx]|];
           exists r; split; [unfold roundLimit, maxRounds in *; lia|];
           unfold progOut; rewrite Ef; exists s', v'; split; [exact Ypre|]; split; [exact Ho|apply Hx]).
  - eapply wp_more.
    + apply (wp_sort kd tn (mI pl) (meanOk_of pl Hpl) (okKey pl e) LW HIns HRec Dm HRec2 (reg s) s v sn0 md0); auto.
      intros i Hi. apply okKey_of; [auto|]. apply nonfloat_nan; exact Ef.
    + lia.
    + unfold sortSteps, cSort in *. lia.
    + intros [] m g' _ Hq. unfold QM in *.
      assert (G : forall w, sortedE kd tn (mI pl) (reg s) s v w ->
        sortPost opt s v w /\ exists r, Z.of_nat r <= roundLimit (len s) /\ progOut opt s v r w).
      { intros w [[Hs _] Hr]. split; [|unfold progOut; rewrite Ef; exact Hr]. split; [rewrite !contents_seg; apply Hs|]. apply inOrder_nonfloat; [exact Ef|].
        eapply sortedP_le; [|exact Hs]. intros i Hi. split; [auto|]. apply nonfloat_nan; exact Ef. }
      destruct (md g'); try exact Hq; intros w Hw; apply G; apply Hq; exact Hw.
Qed.

(** Short inputs: stable. *)
Lemma wp_sortProg_stable opt s v sn0 md0 Dm :
  typedSlice pl e v s -> Forall (fun x => ~ nan e x) (contents v s) -> len s <= maxIns kd tn ->
  md0 = MInit \/ md0 = MSeq ->
  wp (Gr := typedGrain kd tn) (procs pl tn e) (wpT (Gr := typedGrain kd tn) (procs pl tn e) Dm) 0
    (QM (fun _ w => bubble (ltT kd) (contents v s) (contents w s))) (Z.to_nat (sortSteps (len s)))
    (sortProg pl tn opt e s) (Gst (reg s) (reg s) v md0 sn0).
Proof.
  intros [[H0 Hb] Hty] Hnn Hlen Hmd. rewrite (intSize_eq pl) in Hb. unfold sortProg, sortLive, procs.
  rewrite contents_forall in Hty, Hnn.
  assert (HI := HIns). assert (HR := HRec). assert (HR2 := HRec2).
  assert (Hlive : live (Gst (reg s) (reg s) v md0 sn0)).
  { unfold live. cbn [md]. destruct Hmd as [-> | ->]; exact I. }
  assert (G : forall n v', (forall i, v' i = v i) -> cIns (len s) <= Z.of_nat n ->
    wp (Gr := typedGrain kd tn) (body kd tn) (wpT (Gr := typedGrain kd tn) (body kd tn) Dm) 0
      (QM (fun _ w => bubble (ltT kd) (contents v s) (contents w s))) n
      (sort kd tn (mI pl) s) (Gst (reg s) (reg s) v' md0 sn0)).
  { intros n v' Hv Hn. unfold sort. apply wp_bind. rewrite minConc_plain by assumption.
    destruct (Z.ltb_spec (len s) (2 * (maxRec kd tn + 1))); [|lia]. apply wp_ret.
    unfold maxIns, maxRec in *.
    destruct (Z.ltb_spec (if fc kd then maxLenRecFC tn else maxLenRec tn) (len s)); [lia|].
    destruct (Z.ltb_spec (if fc kd then maxLenInsFC tn else maxLenIns tn) (len s)); [lia|].
    eapply wp_sapply with (D1 := O).
    - typeclasses eauto.
    - unfold live. cbn [md]. destruct Hmd as [-> | ->]; exact I.
    - apply (swp_insertion (body kd tn) (ltT kd) (fun x => okKey pl e (key kd x))
        (okT_asym kd (okKey pl e) LW) (okT_trans kd (okKey pl e) LW) s v'); [exact H0|].
      intros i Hi. rewrite Hv. apply okKey_of; [apply Hty|apply Hnn]; exact Hi.
    - lia.
    - lia.
    - auto.
    - auto.
    - cbv beta. cbn [setval val dom rd md seen]. intros u0 m v2 [Hb2 _] _ _. unfold QM. cbn [md].
      assert (G : forall w, agrees (Gst (reg s) (reg s) v2 md0 sn0) w -> bubble (ltT kd) (contents v s) (contents w s)).
      { intros w Hw. rewrite !contents_seg. rewrite (seg_ext w v2) by (intros i Hi; apply Hw; exact Hi).
        rewrite (seg_ext v v') by (intros; auto). exact Hb2. }
      destruct Hmd as [-> | ->]; exact G. }
  assert (Hc : cIns (len s) + cPre (len s) <= sortSteps (len s)).
  { unfold cIns, cPre, sortSteps. nia. }
  assert (Hc2 : 0 <= cPre (len s)) by (unfold cPre; lia).
  assert (Hc3 := cIns_pos (len s) H0).
  destruct (isFloat e) eqn:Ef.
  - apply wp_bind. eapply wp_sapply with (D1 := O); [typeclasses eauto|exact Hlive|apply (swp_prepass (body kd tn) (selfNe e) opt s); [exact H0|]
      |lia|lia|auto|auto|].
    + right; right. intros i Hi. specialize (Hnn i Hi). cbn [val]. rewrite <- selfNe_nan in Hnn. destruct (selfNe e (v i)); congruence.
    + cbv beta. cbn [setval val dom rd md seen]. intros s' n v' ((_ & _ & _ & _ & Hpre) & _) Hf Hn.
      destruct Hpre as [-> Hv]; [|apply G; [exact Hv|lia]].
      intros i Hi. specialize (Hnn i Hi). rewrite <- selfNe_nan in Hnn. destruct (selfNe e (v i)); congruence.
  - apply G; [auto|lia].
Qed.

End Api.
