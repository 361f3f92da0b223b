(** * Quadratic time: calls *)

From Coq Require Import List ZArith Lia Bool Permutation.
From Verif Require Import Lang SeqLogic Base Scalar ScalarFacts Typed Kinds Spec Calls SeqOps TypedPart TypedPivot TypedShort TypedLong
  KindsFacts TypedApi Slow SlowTyped.
Import ListNotations.
Open Scope Z_scope.
Local Arguments Z.mul : simpl never.
Local Arguments Z.add : simpl never.
Local Arguments Z.sub : simpl never.
Local Arguments Z.pow : simpl never.

(** ** Every run takes at least so many steps *)

Section Must.
Context {P T : Type}.
Variable body : P -> cmd P T unit.
Variables (M : Z) (Rg : Z -> Prop).

(** Whatever others do outside [Rg], and to MaxGor within [0,M], [c] takes at least [z] steps. *)
Inductive must {A} (c : cmd P T A) (v : Z -> T) (z : Z) : Prop :=
| must_enough : z <= 0 -> must c v z
| must_tau c' : view c = HTau c' -> must c' v (z - 1) -> must c v z
| must_read i k : view c = HRead i k -> Rg i -> must (k (v i)) v (z - 1) -> must c v z
| must_write i x k : view c = HWrite i x k -> Rg i -> must k (upd v i x) (z - 1) -> must c v z
| must_call p k : view c = HCall p k -> must (k (body p)) v (z - 1) -> must c v z
| must_max k : view c = HLoadMax k -> (forall mg, 0 <= mg <= M -> must (k mg) v (z - 1)) -> must c v z.

Lemma must_ext {A} (c : cmd P T A) v z : must c v z -> forall v', (forall i, Rg i -> v' i = v i) -> must c v' z.
Proof.
  induction 1 as [c v z H|c v z c' E H IH|c v z i k E Hi H IH|c v z i x k E Hi H IH|c v z p k E H IH|c v z k E H IH]; intros v' Hv.
  - apply must_enough; exact H.
  - eapply must_tau; [exact E|auto].
  - eapply must_read; [exact E|exact Hi|]. rewrite (Hv i Hi). auto.
  - eapply must_write; [exact E|exact Hi|]. apply IH. intros j Hj. unfold upd. destruct (j =? i); auto.
  - eapply must_call; [exact E|auto].
  - eapply must_max; [exact E|]. intros mg Hm. apply IH; auto.
Qed.

Lemma must_exec {R} (c : cmd P T R) s z k st : must c (mem s) z -> 0 <= maxg s <= M -> exec body M Rg k (St c [] s) st ->
  z <= Z.of_nat k \/ exists c' s', st = St c' [] s' /\ 0 <= maxg s' <= M /\ must c' (mem s') (z - Z.of_nat k).
Proof.
  intros Hm Hg Hx. remember (St c [] s) as s0 eqn:E0. revert E0.
  induction Hx as [s0|n s0 s1 s2 Hx IH Hp|n s0 s1 s2 Hx IH He]; intros E0; subst s0.
  - right. exists c, s. split; [reflexivity|]. split; [exact Hg|]. replace (z - Z.of_nat 0) with z by lia. exact Hm.
  - destruct (IH eq_refl) as [L|(c1 & s1' & -> & G1 & M1)]; [left; lia|].
    assert (Ez : z - Z.of_nat (S n) = z - Z.of_nat n - 1) by lia. rewrite Ez. clear Ez.
    assert (Hone : forall m' s' fs, exec_local body c1 s1' = Some (m', s', fs) ->
      z <= Z.of_nat (S n) \/ exists c' s'', St m' ([] ++ fs) s' = St c' [] s'' /\ 0 <= maxg s'' <= M /\ must c' (mem s'') (z - Z.of_nat n - 1)).
    { intros m' s' fs Hl. unfold exec_local in Hl. destruct M1 as [H|c' E H|i k E Hi H|i x k E Hi H|p k E H|k E H].
      - left. lia.
      - rewrite E in Hl. inversion Hl; subst. right. eexists _, _. split; [reflexivity|]. split; [exact G1|]. auto.
      - rewrite E in Hl. inversion Hl; subst. right. eexists _, _. split; [reflexivity|]. split; [exact G1|]. auto.
      - rewrite E in Hl. inversion Hl; subst. right. eexists _, _. split; [reflexivity|]. split; [exact G1|exact H].
      - rewrite E in Hl. inversion Hl; subst. right. eexists _, _. split; [reflexivity|]. split; [exact G1|]. auto.
      - rewrite E in Hl. inversion Hl; subst. right. eexists _, _. split; [reflexivity|]. split; [exact G1|]. auto. }
    inversion Hp as [a b Hi|m ts s' k0 x Ev|m l1 c0 l2 s' k0 x Ev Ea]; subst.
    + inversion Hi; subst; try solve [match goal with H : _ ++ _ :: _ = [] |- _ => symmetry in H; apply app_cons_not_nil in H; destruct H
          | H : [] = _ ++ _ :: _ |- _ => apply app_cons_not_nil in H; destruct H end].
      match goal with H : exec_local _ _ _ = Some _ |- _ => exact (Hone _ _ _ H) end.
    + left. destruct M1 as [H|c' E H|i k E Hi H|i y k E Hi H|p k E H|k E H]; [lia|..]; rewrite Ev in E; discriminate.
    + match goal with H : _ ++ _ :: _ = [] |- _ => symmetry in H; apply app_cons_not_nil in H; destruct H
          | H : [] = _ ++ _ :: _ |- _ => apply app_cons_not_nil in H; destruct H end.
  - destruct (IH eq_refl) as [L|(c1 & s1' & -> & G1 & M1)]; [left; lia|].
    inversion He as [m ts s' mem' mg' Hmg Hmem]; subst. right. eexists _, _. split; [reflexivity|]. split; [exact Hmg|].
    cbn [mem]. apply (must_ext _ _ _ M1). exact Hmem.
Qed.

Lemma must_returned {R} (c : cmd P T R) s z k st r : must c (mem s) z -> 0 <= maxg s <= M -> exec body M Rg k (St c [] s) st ->
  returned st r -> z <= Z.of_nat k.
Proof.
  intros Hm Hg Hx Hr. destruct (must_exec c s z k st Hm Hg Hx) as [L|(c1 & s1 & -> & G1 & M1)]; [exact L|].
  unfold returned in Hr. cbn [main] in Hr. destruct M1 as [H|c' E H|i k' E Hi H|i y k' E Hi H|p k' E H|k' E H]; [lia|..]; rewrite Hr in E; discriminate.
Qed.

(** The sequential logic says which cells are accessed. *)
Lemma must_lasts {A} D (Rd Wr : Z -> Prop) (Q : A -> nat -> (Z -> T) -> Prop) n : (forall i, Rd i -> Rg i) -> (forall i, Wr i -> Rg i) ->
  forall (c : cmd P T A) s z, swp body D n Rd Wr Q c (mem s) -> lasts body c s z -> must c (mem s) z.
Proof.
  intros HR HW. induction n as [|n IH]; intros c s z H L; (destruct L as [L|c' s' E L]; [apply must_enough; exact L|]);
    rewrite swp_eq in H; destruct H as [_ H]; unfold exec_local in E; destruct (view c) eqn:Ev; try contradiction; try discriminate;
    inversion E; subst.
  - eapply must_tau; [exact Ev|]. apply IH; assumption.
  - eapply must_read; [exact Ev|apply HR, H|]. apply IH; [apply H|assumption].
  - eapply must_write; [exact Ev|apply HW, H|]. exact (IH _ (Sh (upd (mem s) i v) (ngor s) (maxg s) (chans s)) (z - 1) (proj2 H) L).
  - eapply must_call; [exact Ev|]. apply IH; assumption.
Qed.

Lemma must_mono {A} (c : cmd P T A) v z : must c v z -> forall z', z' <= z -> must c v z'.
Proof.
  induction 1 as [c v z H|c v z c' E H IH|c v z i k E Hi H IH|c v z i x k E Hi H IH|c v z p k E H IH|c v z k E H IH]; intros z' Hz.
  - apply must_enough; lia.
  - eapply must_tau; [exact E|]. apply IH; lia.
  - eapply must_read; [exact E|exact Hi|]. apply IH; lia.
  - eapply must_write; [exact E|exact Hi|]. apply IH; lia.
  - eapply must_call; [exact E|]. apply IH; lia.
  - eapply must_max; [exact E|]. intros mg Hm. apply IH; [exact Hm|lia].
Qed.

Lemma must_view {A} (c d : cmd P T A) v z : view c = view d -> must c v z -> must d v z.
Proof.
  intros V H. destruct H as [H|c' E H|i k' E Hi H|i y k' E Hi H|p k' E H|k' E H]; try rewrite V in E;
    [apply must_enough|eapply must_tau|eapply must_read|eapply must_write|eapply must_call|eapply must_max]; eassumption.
Qed.

Lemma must_bind {A B} D (Rd Wr : Z -> Prop) (k : A -> cmd P T B) z n : (forall i, Rd i -> Rg i) -> (forall i, Wr i -> Rg i) ->
  forall (c : cmd P T A) v z', z' <= z -> swp body D n Rd Wr (fun a _ v' => must (k a) v' z) c v -> must (Bind c k) v z'.
Proof.
  intros HR HW. induction n as [|n IH]; intros c v z' Hz H; rewrite swp_eq in H; destruct H as [_ H]; destruct (view c) eqn:Ev; try contradiction;
    try (apply (must_view (k a)); [cbn [view]; rewrite Ev; reflexivity|]; eapply must_mono; [exact H|exact Hz]).
  - eapply must_tau; [cbn [view]; rewrite Ev; reflexivity|]. apply IH; [lia|exact H].
  - eapply must_read; [cbn [view]; rewrite Ev; reflexivity|apply HR, H|]. apply IH; [lia|apply H].
  - eapply must_write; [cbn [view]; rewrite Ev; reflexivity|apply HW, H|]. apply IH; [lia|apply H].
  - eapply must_call; [cbn [view]; rewrite Ev; reflexivity|]. apply IH; [lia|exact H].
Qed.

End Must.

(** ** SortSlice and SortLen *)

(** Different values, in increasing order. *)
Definition increasing (e : ety) (n : Z) (vals : Z -> elem e) : Prop :=
  forall i j, 0 <= i -> i < j -> j < n -> lt e (vals i) (vals j).

Section Call.
Variables (pl : plat) (tn : tuning) (e : ety).
Hypothesis Hpl : platOk pl.
Hypothesis Htn : tuningOk pl tn.
Local Existing Instance pword.
Notation kd := (kindOf pl e).
Let LW : laws kd (okKey pl e) := laws_all pl e Hpl.

Lemma slow_typed opt s B vals :
  (forall i, 0 <= i < len s -> wellTyped pl e (vals i) /\ ~ nan e (vals i)) -> increasing e (len s) vals ->
  goSlice pl s -> maxRec kd tn + 4 <= B -> 48 <= B -> B <= len s ->
  exists a : Z -> Z, (forall x, 0 <= x < len s -> 0 <= a x < len s) /\
    forall m0, (forall x, 0 <= x < len s -> m0 (off s + x) = vals (a x)) ->
    forall z, 8 * z <= (len s - B) * (len s - B) ->
      must (procs pl tn e) 1 (cellsOf s) (sortProg pl tn opt e s) m0 z.
Proof.
  intros Hv Hinc [H0 Hb] HB HB' HBn. rewrite (intSize_eq pl) in Hb.
  assert (HIns := tuning_ins kd tn Htn). assert (HRec := tuning_rec kd tn Htn). assert (HRec2 := tuning_rec2 kd tn Htn).
  assert (Eok : forall i, 0 <= i < len s -> okKey pl e (key kd (vals i))).
  { intros i Hi. destruct (Hv i Hi). apply okKey_of; assumption. }
  assert (Elt : forall i j, 0 <= i -> i < j -> j < len s -> ltb kd (key kd (vals i)) (key kd (vals j)) = true).
  { intros i j Hi Hij Hj. destruct (Hinc i j Hi Hij Hj) as [_ H]. destruct (Hv i ltac:(lia)), (Hv j ltac:(lia)).
    rewrite <- (le_leb pl) in H by assumption. rewrite (law_le _ _ LW) in H by (apply Eok; lia).
    destruct (ltb kd (key kd (vals i)) (key kd (vals j))); [reflexivity|]. exfalso. apply H. reflexivity. }
  destruct (slow_long kd tn (okKey pl e) LW (len s) vals Eok Elt HIns HRec B HB HB' (len s) 0) as (a & Ha & Hrun); try lia.
  exists a. split; [intros x Hx; specialize (Ha x Hx); lia|].
  intros m0 Hm z Hz.
  assert (Hcells : forall i, reg s i -> cellsOf s i) by (intros i Hi; exact Hi).
  assert (Hm' : forall i, reg s i -> exists j, 0 <= j < len s /\ m0 i = vals j).
  { intros i Hi. unfold reg in Hi. exists (a (i - off s)). split; [apply Ha; lia|]. rewrite <- Hm by lia. f_equal. lia. }
  assert (Hok : okOn kd (okKey pl e) s m0).
  { intros i Hi. destruct (Hm' i Hi) as (j & Hj & ->). apply Eok. exact Hj. }
  assert (Hsort : forall v, (forall i, v i = m0 i) -> must (procs pl tn e) 1 (cellsOf s) (sort kd tn (mI pl) s) v z).
  { intros v Ev. apply must_ext with (v := m0); [|intros; apply Ev]. clear v Ev. unfold sort.
    set (rest := fun single : bool => _).
    assert (Hrest : must (procs pl tn e) 1 (cellsOf s) (rest true) m0 z).
    { unfold rest. destruct (Z.ltb_spec (if fc kd then maxLenRecFC tn else maxLenRec tn) (len s)) as [L|L]; [|unfold maxRec in HB; lia].
      set (s0 := Sh m0 0 0 0). change m0 with (mem s0).
      eapply must_lasts with (Q := fun _ _ _ => True); [exact Hcells|exact Hcells| |].
      - apply swp_call with (n := S (S (Z.to_nat (cSort (len s))))); [lia|].
        eapply swp_use; [apply (swp_long kd tn (okKey pl e) LW HIns HRec s m0); [exact L|lia|exact Hok]|..]; auto; try lia.
        cbv beta. intros _ m v' _ _. split; [lia|]. apply swp_ret. exact I.
      - apply lasts_call. destruct s as [o n]. cbn [len off] in *. apply (Hrun o s0 z); auto. }
    destruct (Z.ltb_spec (len s) (minConc kd tn)) as [L|L].
    - apply (must_view _ _ _ (rest true)); [reflexivity|exact Hrest].
    - eapply must_max; [reflexivity|]. intros mg Hmg.
      apply (must_view _ _ _ (rest (mg <=? 1))); [reflexivity|]. destruct (Z.leb_spec mg 1); [|lia].
      eapply must_mono; [exact Hrest|lia]. }
  unfold sortProg, sortLive. destruct (isFloat e) eqn:Ef; [|apply Hsort; reflexivity].
  eapply (must_bind _ _ _ O _ _ _ z); [exact Hcells|exact Hcells|lia|].
  eapply swp_conseq; [apply (swp_prepass (procs pl tn e) (selfNe e) opt s m0); [exact H0|]|].
  - right; right. intros i Hi. destruct (Hm' i Hi) as (j & Hj & ->). destruct (Hv j Hj) as [_ Hn]. rewrite <- selfNe_nan in Hn.
    destruct (selfNe e (vals j)); congruence.
  - cbv beta. intros s' m v _ [(_ & _ & _ & _ & Hno) _]. destruct Hno as [-> Ev]; [|apply Hsort; exact Ev].
    intros i Hi. destruct (Hm' i Hi) as (j & Hj & ->). destruct (Hv j Hj) as [_ Hn]. rewrite <- selfNe_nan in Hn.
    destruct (selfNe e (vals j)); congruence.
Qed.

End Call.

Theorem quadratic_values pl tn opt e s vals : platOk pl -> tuningOk pl tn -> goSlice pl s ->
  (forall i, 0 <= i < len s -> wellTyped pl e (vals i) /\ ~ nan e (vals i)) -> increasing e (len s) vals ->
  maxLenRec tn + 48 <= len s ->
  exists m0, (forall i, cellsOf s i -> exists j, 0 <= j < len s /\ m0 i = vals j) /\
    sortCall pl tn (typedCall pl tn opt e s m0) /\
    forall k st, reach (typedCall pl tn opt e s m0) 1 k st -> returned st tt ->
      (len s - maxLenRec tn - 48) * (len s - maxLenRec tn - 48) < 8 * (Z.of_nat k + 1).
Proof.
  intros Hpl Htn Hs Hv Hinc Hn. assert (Htn' := Htn). destruct Htn' as (T1 & T2 & T3 & T4 & T5).
  set (B := maxLenRec tn + 48).
  destruct (slow_typed pl tn e Hpl Htn opt s B vals Hv Hinc Hs) as (a & Ha & Hrun).
  { unfold maxRec, B. destruct (fc (kindOf pl e)); lia. }
  { unfold B. lia. }
  { exact Hn. }
  set (m0 := fun i => vals (a (i - off s))).
  assert (Hm : forall i, cellsOf s i -> exists j, 0 <= j < len s /\ m0 i = vals j).
  { intros i Hi. exists (a (i - off s)). split; [apply Ha; unfold cellsOf in Hi; lia|reflexivity]. }
  assert (Hall : forall i, cellsOf s i -> wellTyped pl e (m0 i) /\ ~ nan e (m0 i)).
  { intros i Hi. destruct (Hm i Hi) as (j & Hj & ->). apply Hv. exact Hj. }
  exists m0. split; [exact Hm|]. split.
  - apply call_typed.
    + split; [exact Hs|]. apply contents_forall. intros i Hi. apply Hall. exact Hi.
    + right; right. apply contents_forall. intros i Hi. apply Hall. exact Hi.
  - intros k st (mg & Hmg & Hx) Hr. set (X := len s - maxLenRec tn - 48).
    assert (Hd := Z.div_mod (X * X) 8 ltac:(lia)). assert (Hd' := Z.mod_pos_bound (X * X) 8 ltac:(lia)).
    enough (Hk : X * X / 8 <= Z.of_nat k).
    { clear - Hk Hd Hd'. clearbody X. set (Y := X * X) in *. clearbody Y. lia. }
    eapply (must_returned (procs pl tn e) 1 (cellsOf s) (sortProg pl tn opt e s) (Sh m0 0 mg 0) _ k st tt); [|exact Hmg|exact Hx|exact Hr].
    apply Hrun.
    + intros x Hx'. cbn [mem]. unfold m0. replace (off s + x - off s) with x by lia. reflexivity.
    + replace (len s - B) with X by (unfold X, B; lia). lia.
Qed.

(** ** Enough values of each type *)

Definition value (e : ety) (i : Z) : elem e :=
  match e as e return elem e with
  | TS | TLenS => StrH 0 (repeat 0 (Z.to_nat i))
  | TB => SlcH 0 i (repeat 0 (Z.to_nat i))
  | TLenB => AnyH 0 i i
  | _ => i
  end.

(** How many of them are used. *)
Definition room (e : ety) : Z := match e with TI4 | TU4 | TF4 => 2 ^ 30 | _ => 2 ^ 62 end.

Lemma fVal_incr mw ew i j : 1 <= mw -> 1 <= ew -> 0 <= i -> i < j -> j < 2 ^ (mw + ew) -> fVal mw ew i < fVal mw ew j.
Proof.
  intros Hm He Hi Hij Hj. rewrite Z.pow_add_r in Hj by lia.
  unfold fVal, fNeg, fExp, fMan. rewrite Z.pow_add_r by lia.
  set (W := 2 ^ mw) in *. set (X := 2 ^ ew) in *.
  assert (HW : 0 < W) by (apply Z.pow_pos_nonneg; lia). assert (HX : 0 < X) by (apply Z.pow_pos_nonneg; lia).
  destruct (Z.leb_spec (W * X) i); [lia|]. destruct (Z.leb_spec (W * X) j); [lia|].
  assert (Di := Z.div_mod i W ltac:(lia)). assert (Dj := Z.div_mod j W ltac:(lia)).
  assert (Mi := Z.mod_pos_bound i W HW). assert (Mj := Z.mod_pos_bound j W HW).
  assert (Qi : 0 <= i / W < X) by (split; [apply Z.div_pos; lia|apply Z.div_lt_upper_bound; lia]).
  assert (Qj : 0 <= j / W < X) by (split; [apply Z.div_pos; lia|apply Z.div_lt_upper_bound; lia]).
  rewrite (Z.mod_small (i / W)), (Z.mod_small (j / W)) by lia.
  set (p := i / W) in *. set (q := j / W) in *. set (a := i mod W) in *. set (b := j mod W) in *. clearbody p q a b.
  assert (Hpq : p <= q) by nia.
  destruct (Z.eq_dec p q) as [->|Ne].
  - assert (a < b) by lia. destruct (Z.eqb_spec q 0); [lia|].
    assert (0 < 2 ^ (q - 1)) by (apply Z.pow_pos_nonneg; lia). nia.
  - destruct (Z.eqb_spec q 0); [lia|].
    assert (P1 : 0 < 2 ^ (q - 1)) by (apply Z.pow_pos_nonneg; lia).
    destruct (Z.eqb_spec p 0); [nia|].
    assert (P2 : 0 < 2 ^ (p - 1)) by (apply Z.pow_pos_nonneg; lia).
    assert (P3 : 2 * 2 ^ (p - 1) <= 2 ^ (q - 1)).
    { replace (2 * 2 ^ (p - 1)) with (2 ^ p); [apply Z.pow_le_mono_r; lia|].
      replace p with (1 + (p - 1)) at 1 by lia. rewrite Z.pow_add_r by lia. reflexivity. }
    nia.
Qed.

Lemma lexle_repeat n m : lexle (repeat 0 n) (repeat 0 m) <-> (n <= m)%nat.
Proof.
  revert m. induction n as [|n IH]; intros [|m]; cbn [repeat].
  - split; [lia|constructor].
  - split; [lia|constructor].
  - split; [intro H; inversion H|lia].
  - split; intro H.
    + inversion H as [|? ? ? ? Hl|? ? ? Hl]; subst; [lia|]. apply IH in Hl. lia.
    + apply lex_eq. apply IH. lia.
Qed.

Lemma value_incr e : increasing e (room e) (value e).
Proof.
  intros i j Hi Hij Hj. unfold lt. destruct e; cbn [room value le sbytes bbytes alen elem] in *.
  - unfold intVal. rewrite !Z.mod_small by lia. lia.
  - unfold intVal. rewrite !Z.mod_small by lia. lia.
  - lia.
  - lia.
  - assert (H := fVal_incr 23 8 i j). lia.
  - assert (H := fVal_incr 52 11 i j). lia.
  - rewrite !lexle_repeat. lia.
  - rewrite !lexle_repeat. lia.
  - rewrite !repeat_length. lia.
  - lia.
Qed.

Lemma value_ok pl e i : platOk pl -> 0 <= i < room e -> i < intSize pl -> wellTyped pl e (value e i) /\ ~ nan e (value e i).
Proof.
  intros Hpl Hi Hb. destruct e; cbn [room value wellTyped nan sbytes bbytes alen elem] in *; rewrite ?repeat_length; try (split; [lia|tauto]).
  - split; [lia|]. intros [H _]. unfold fExp in H. rewrite Z.mod_small in H.
    + assert (i / 2 ^ 23 < 128) by (apply Z.div_lt_upper_bound; lia). lia.
    + split; [apply Z.div_pos; lia|]. assert (i / 2 ^ 23 < 128) by (apply Z.div_lt_upper_bound; lia). lia.
  - split; [lia|]. intros [H _]. unfold fExp in H. rewrite Z.mod_small in H.
    + assert (i / 2 ^ 52 < 1024) by (apply Z.div_lt_upper_bound; lia). lia.
    + split; [apply Z.div_pos; lia|]. assert (i / 2 ^ 52 < 1024) by (apply Z.div_lt_upper_bound; lia). lia.
Qed.

Theorem quadratic pl tn opt e s : platOk pl -> tuningOk pl tn -> goSlice pl s ->
  maxLenRec tn + 48 <= len s <= match e with TI4 | TU4 | TF4 => 2 ^ 30 | _ => 2 ^ 62 end ->
  exists m0, sortCall pl tn (typedCall pl tn opt e s m0) /\
    forall k st, reach (typedCall pl tn opt e s m0) 1 k st -> returned st tt ->
      (len s - maxLenRec tn - 48) * (len s - maxLenRec tn - 48) < 8 * (Z.of_nat k + 1).
Proof.
  intros Hpl Htn Hs Hn. fold (room e) in Hn.
  destruct (quadratic_values pl tn opt e s (value e) Hpl Htn Hs) as (m0 & _ & H); [| |lia|exists m0; exact H].
  - intros i Hi. destruct Hs. apply value_ok; [exact Hpl|lia|lia].
  - intros i j Hi Hij Hj. apply value_incr; lia.
Qed.
