(** * Sort under the Go memory model, with reads that see writes yet to come

    Sort is not free of races whatever its reads deliver: the new goroutine of partCon may compare
    the pivot with itself (partOne, sortyLsw.go:84-119) and, if the two reads of it disagree, swap it
    while partTwo of the caller reads it.  But two rounds of reasoning suffice.  If all reads deliver anything, only reads of the caller can
    race ([Sly.v] with [lax]).  So reads of the other goroutines return what was last written, and
    with this there is no race at all. *)

From Coq Require Import List ZArith Lia Bool Permutation.
From Verif Require Import Lang SeqLogic ConcLogic Soundness Adequacy SafeLogic Trace HappensBefore SafeAdequacy Base Scalar Typed SeqOps TypedShort
  ScalarFacts TypedLong TypedSort AnySort Kinds Spec KindsFacts TypedApi Lsw LswSeq LswPart LswLong LswSort Calls Guarantee TraceFacts TypedFacts AnyFacts Weak WeakFacts CalmTop
  Thin ThinTyped Sly SlyAdequacy SlyLsw.
Import ListNotations.
Open Scope Z_scope.
Local Arguments Z.mul : simpl never.
Local Arguments Z.add : simpl never.
Local Arguments Z.sub : simpl never.
Local Arguments Z.pow : simpl never.

Section Rounds.
Context {P T R : Type}.
Variable body : P -> cmd P T unit.
Variable M : Z.
Variable Rg : Z -> Prop.
Variable m0 : Z -> T.

Notation wst := (wst (P := P) (T := T) (R := R)).
Notation history := (history (T := T)).

(** Reads of all goroutines but the caller return the last value written. *)
Definition trusty (h : history) : Prop :=
  forall n t x v, nth_error h n = Some (EvRead t x, Some v) -> Rg x -> t <> O -> v = latest m0 (firstn n h) x.

Lemma trusty_prefix h h' : trusty (h ++ h') -> trusty h.
Proof.
  intros H n t x v Hn Hx Ht. assert (L := nth_lt _ _ _ Hn).
  rewrite (H n t x v (nth_in1 _ _ _ _ Hn) Hx Ht), firstn_all_app by lia. reflexivity.
Qed.

Lemma read_keeps t x (s s' : st P T R) : tstep body (EvRead t x) s s' -> sh s' = sh s.
Proof.
  intro Hs. remember (EvRead t x) as e eqn:E. destruct Hs; try discriminate E; cbn [sh].
  - unfold exec_local, Trace.label in *. destruct (view m) eqn:Ev; try discriminate; inversion H; subst; reflexivity.
  - unfold exec_local, Trace.label in *. destruct (view c) eqn:Ev; try discriminate; inversion H; subst; reflexivity.
Qed.

Lemma guesses_lexec lax mg0 (c0 : cmd P T R) (w : wst) : 0 <= mg0 <= M -> (forall x, Rg x \/ ~ Rg x) ->
  guesses body M c0 w -> lax = true \/ trusty (whist w) ->
  exists s, lexec body lax M Rg (map fst (whist w)) (start c0 m0 mg0) s /\
    main s = wmain w /\ thr s = wthr w /\ ngor (sh s) = wngor w /\ chans (sh s) = wchans w /\
    forall x, Rg x -> mem (sh s) x = latest m0 (whist w) x.
Proof.
  intros Hmg Hdec H. induction H as [|w w' H IH Hs]; intro Ho.
  - exists (start c0 m0 mg0). split; [constructor|]. repeat split.
  - destruct Hs as [e m ts ng ch h mm mg s' Hmg' Hst].
    cbn [wmain wthr wngor wchans whist] in *.
    assert (Ho' : lax = true \/ trusty h) by (destruct Ho as [E|Ho]; [left; exact E|right; eapply trusty_prefix; exact Ho]).
    destruct (IH Ho') as (s & Ht & E1 & E2 & E3 & E4 & E5).
    destruct s as [m1 ts1 [w0 ng1 mg1 ch1]]. cbn [main thr sh ngor chans mem] in *. subst m1 ts1 ng1 ch1.
    assert (Hlie : (exists t x, e = EvRead t x /\ (lax = true \/ t = O)) \/ forall t x, e = EvRead t x -> lax = false /\ t <> O).
    { destruct e as [|t x| | | |]; try (right; intros t' x' E; discriminate).
      destruct lax; [left; exists t, x; auto|]. destruct t as [|t]; [left; exists O, x; auto|].
      right. intros t' x' E. inversion E; subst. split; [reflexivity|discriminate]. }
    destruct Hlie as [(t & x & -> & Hl)|Hl].
    + assert (Hk := read_keeps _ _ _ _ Hst). cbn [sh] in Hk.
      assert (Henv : lexec body lax M Rg (map fst h) (start c0 m0 mg0) (St m ts (Sh w0 ng mg ch))).
      { eapply lexec_env; [exact Ht|]. apply (env_step M Rg m ts (Sh w0 ng mg1 ch) w0 mg); [exact Hmg'|auto]. }
      eexists. rewrite map_app. split; [eapply lexec_prog; [exact Henv|eapply lstep_lie; [exact Hl|exact Hst]]|].
      cbn [main thr sh ngor chans mem]. rewrite Hk. cbn [ngor chans].
      do 4 (split; [reflexivity|]). intros y Hy. rewrite last_app. cbn [noted]. apply E5. exact Hy.
    + assert (Hw : exists w1, (forall x, Rg x -> w1 x = w0 x) /\ forall t x, e = EvRead t x -> ~ Rg x -> w1 x = mm x).
      { destruct e as [|t x| | | |]; try (exists w0; split; [auto|intros t' x' E; discriminate]).
        destruct (Hdec x) as [Hx|Hx].
        - exists w0. split; [auto|]. intros t' x' E. inversion E; subst. contradiction.
        - exists (upd w0 x (mm x)). unfold upd. split.
          + intros y Hy. destruct (Z.eqb_spec y x); [subst; contradiction|reflexivity].
          + intros t' x' E _. inversion E; subst. rewrite Z.eqb_refl. reflexivity. }
      destruct Hw as (w1 & W1 & W2).
      assert (Henv : lexec body lax M Rg (map fst h) (start c0 m0 mg0) (St m ts (Sh w1 ng mg ch))).
      { eapply lexec_env; [exact Ht|]. apply (env_step M Rg m ts (Sh w0 ng mg1 ch) w1 mg); assumption. }
      assert (Hsame : forall t x, e = EvRead t x -> w1 x = mm x).
      { intros t x E. destruct (Hdec x) as [Hx|Hx]; [|eapply W2; eauto].
        destruct (Hl t x E) as [El Hne]. destruct Ho as [E'|Ho]; [congruence|].
        rewrite (W1 x Hx), (E5 x Hx). symmetry. subst e. cbn [noted] in Ho.
        rewrite (Ho (length h) t x (mm x) (nth_app_new _ _) Hx Hne), firstn_all_app, firstn_all by lia. reflexivity. }
      destruct (tstep_swap body e m ts mm w1 ng mg ch s' Hst Hsame) as [_ Hst'].
      eexists. cbn [wmain wthr wngor wchans whist]. rewrite map_app. split; [eapply lexec_prog; [exact Henv|apply lstep_true; exact Hst']|].
      cbn [main thr sh ngor chans mem]. do 4 (split; [reflexivity|]).
      intros x Hx. rewrite last_app. unfold noted, wrote, after. destruct e as [| |t y| | |]; rewrite ?(W1 x Hx), ?(E5 x Hx); try reflexivity.
      unfold upd. rewrite (Z.eqb_sym x y). destruct (Z.eqb y x); [reflexivity|]. rewrite (W1 x Hx). apply E5. exact Hx.
Qed.

(** If only reads of the caller can race, then the reads of the others return what was last written,
    if they are explained at all.  [h'] is what the caller reads afterwards. *)
Lemma others_last h h' tr' n t x v : Forall2 (blur true) (map fst h) tr' -> ~ dataRace tr' ->
  (forall y j u, ~ writes h' y j u) ->
  nth_error h n = Some (EvRead t x, Some v) -> t <> O -> explainedAt m0 (h ++ h') n x v -> v = latest m0 (firstn n h) x.
Proof.
  intros HF Hno Hh Hn Ht He. assert (L := nth_lt _ _ _ Hn).
  assert (Hn' : nth_error tr' n = Some (EvRead t x)).
  { assert (N : nth_error (map fst h) n = Some (EvRead t x)) by (rewrite nth_error_map, Hn; reflexivity).
    destruct (blur_nth1 _ _ _ _ _ HF N) as (e' & N' & [->|(_ & y & E & _)]); [exact N'|]. inversion E; subst. contradiction. }
  assert (Hw : forall j u, writes (h ++ h') x j u -> exists t', nth_error tr' j = Some (EvWrite t' x)).
  { intros j u (t' & Hj). destruct (Nat.lt_ge_cases j (length h)) as [Lj|Lj].
    - rewrite nth_error_app1 in Hj by exact Lj.
      assert (N : nth_error (map fst h) j = Some (EvWrite t' x)) by (rewrite nth_error_map, Hj; reflexivity).
      destruct (blur_nth1 _ _ _ _ _ HF N) as (e' & N' & [->|(_ & y & E & _)]); [eauto|discriminate].
    - exfalso. rewrite nth_error_app2 in Hj by exact Lj. apply (Hh x (j - length h)%nat u). exists t'. exact Hj. }
  assert (Hb : forall i j, hb tr' i j -> hb (map fst (h ++ h')) i j).
  { intros i j B. rewrite map_app. apply (hb_embed [] (map fst h) (map fst h')). eapply blur_hb; eassumption. }
  rewrite <- (firstn_all_app n h h') by lia.
  apply (explained_ordered m0 (h ++ h') n t x v); [| | |apply nth_in1; exact Hn|exact He].
  - intros j v' W Lj N. destruct (Hw j v' W) as (t' & H1). apply Hno.
    exists j, n, (EvWrite t' x), (EvRead t x), x, true, false. split; [exact Lj|]. split; [exact H1|]. split; [exact Hn'|].
    split; [right; eauto|]. split; [left; eauto|]. split; [auto|]. intro B. apply N, Hb, B.
  - intros j v' W Lj N. destruct (Hw j v' W) as (t' & H1). apply Hno.
    exists n, j, (EvRead t x), (EvWrite t' x), x, false, true. split; [exact Lj|]. split; [exact Hn'|]. split; [exact H1|].
    split; [left; eauto|]. split; [right; eauto|]. split; [auto|]. intro B. apply N, Hb, B.
  - intros j v' j' v'' W W' Lj N. destruct (Hw j v' W) as (t1 & H1). destruct (Hw j' v'' W') as (t2 & H2). apply Hno.
    exists j, j', (EvWrite t1 x), (EvWrite t2 x), x, true, true. split; [exact Lj|]. split; [exact H1|]. split; [exact H2|].
    split; [right; eauto|]. split; [right; eauto|]. split; [auto|]. intro B. apply N, Hb, B.
Qed.

End Rounds.

(** ** Sort *)

Section Sort.
Variables (pl : plat) (tn : tuning).
Hypothesis Hpl : platOk pl.
Hypothesis Htn : tuningOk pl tn.
Hypothesis Hin : nearMean pl.
Context {T : Type}.
Variables (lt lq : T -> T -> bool) (cap n : Z) (m0 : Z -> T).
Hypothesis Hirr : forall x, lt x x = false.
Hypothesis Hn : 0 <= n <= cap.
Hypothesis Hb : 11 * n + 18 < 10 * intSize pl.
Local Existing Instance pword.

Notation C := (lswCallBy pl tn lt lq cap n m0).
Notation body := (lswBody (Wd := pword pl) lt cap tn (mI pl)).
Notation prog := (lswSort (Wd := pword pl) lt cap tn (mI pl) n).
Notation R0 := (reg (Slice 0 n)).
Notation Dp := (Z.to_nat (Z.log2 n + 2)).
Notation G := (lswGrain tn).

Lemma sly_yp lax m : yp (Gr := G) body Dp lax m Dp QY prog (Gst R0 R0 m0 MInit 0).
Proof.
  assert (T1 := tuning_ins (lkind lq) tn Htn). assert (T2 := tuning_rec (lkind lq) tn Htn). assert (T3 := tuning_rec2 (lkind lq) tn Htn).
  assert (HI := intSize_wq pl (proj1 Hpl)).
  apply (yp_bSort lt Hirr cap n ltac:(lia) tn (mI pl) (meanOk_of pl Hpl) (meanEven_of pl Hpl)); try assumption; try lia.
  - intros x y Hx Hxy Hy. assert (B := Hin x y Hx ltac:(lia) ltac:(lia)). lia.
  - intros i Hi. exact Hi.
  - left. reflexivity.
Qed.

Lemma lsw_finite : exists l, (forall i, R0 i -> In i l) /\ Z.of_nat (length l) < two64.
Proof. apply (slice_finite pl 0 n Hpl). assert (HI := intSize_max pl Hpl). simpl. lia. Qed.

Lemma lsw_dec x : R0 x \/ ~ R0 x.
Proof. unfold reg. cbn [off len]. lia. Qed.

(** One round: the others' reads return what was last written. *)
Lemma lsw_others M w h' k t x v : 0 <= M -> guesses body M prog w -> (forall y j u, ~ writes h' y j u) ->
  nth_error (whist w) k = Some (EvRead t x, Some v) -> t <> O -> explainedAt m0 (whist w ++ h') k x v ->
  v = latest m0 (firstn k (whist w)) x.
Proof.
  intros HM Hw Hh Hk Ht He.
  destruct (guesses_lexec body M R0 m0 true 0 prog w ltac:(lia) lsw_dec Hw (or_introl eq_refl)) as (s & Hs & _).
  destruct (yad_no_data_race (Gr := G) body Dp Dp true M R0 lsw_finite prog m0 0 MInit ltac:(lia) (or_intror eq_refl) (sly_yp true) _ s Hs)
    as (tr' & HF & Hno).
  eapply others_last; eassumption.
Qed.

(** The other: then there is no race. *)
Lemma lsw_norace M w pre : 0 <= M -> guesses body M prog w -> trusty R0 m0 (whist w) -> callerOnly pre ->
  ~ dataRace (pre ++ map fst (whist w)) /\
  forall post, view (wmain w) = HRet tt -> callerOnly post -> ~ dataRace (pre ++ map fst (whist w) ++ post).
Proof.
  intros HM Hw Ho Hpre.
  destruct (guesses_lexec body M R0 m0 false 0 prog w ltac:(lia) lsw_dec Hw (or_intror Ho)) as (s & Hs & E1 & _).
  destruct (guesses_exec body M m0 0 prog w ltac:(lia) Hw) as (s1 & Hs1 & _).
  assert (N := half_no_data_race (Gr := G) body Dp Dp M R0 lsw_finite prog m0 0 MInit ltac:(lia) (or_intror eq_refl) (sly_yp false) _ s Hs).
  assert (K : forall post, callerOnly post -> (post <> [] -> view (wmain w) = HRet tt) -> ~ dataRace (pre ++ map fst (whist w) ++ post)).
  { intros post Hpost Hr. apply norace_embed; auto.
    - intros i e t. apply (proj2 (all_started body M (fun _ => False) prog m0 0 _ s1 Hs1)).
    - intros Hne. apply (half_return_knows (Gr := G) body Dp Dp M R0 lsw_finite prog m0 0 MInit ltac:(lia) (or_intror eq_refl) (sly_yp false) _ s tt Hs).
      unfold returned. rewrite E1. apply Hr. exact Hne. }
  split.
  - assert (K' := K [] ltac:(constructor) ltac:(intro X; contradiction)). rewrite app_nil_r in K'. exact K'.
  - intros post Hr Hpost. apply K; auto.
Qed.

Theorem lsw_tame : tame C.
Proof.
  split.
  - intros M w rs pre HM (Hw & Hr & He) Hpre. apply (lsw_norace M w pre HM Hw); [|exact Hpre].
    intros k t x v Hk Hx Ht. apply (lsw_others M w (readings rs) k t x v HM Hw); [|exact Hk|exact Ht|].
    + intros y j u (t' & Hj). unfold readings in Hj. rewrite nth_error_map in Hj.
      destruct (nth_error rs j) as [[a b]|]; discriminate.
    + apply (He k t x v); [apply nth_in1; exact Hk|exact Hx].
  - intros M run i HM HE. assert (Hw := endless_guesses _ _ _ _ _ _ i HE).
    apply (lsw_norace M (run i) [] HM Hw); [|constructor].
    intros k t x v Hk Hx Ht. assert (HE' := HE). destruct HE' as (_ & _ & Hex). destruct (Hex i k t x v Hk Hx) as (j & Hij & Hj).
    destruct (endless_prefix _ _ _ _ _ _ i j HE Hij) as (l & El). assert (L := nth_lt _ _ _ Hk).
    assert (Hk' : nth_error (whist (run j)) k = Some (EvRead t x, Some v)) by (rewrite El; apply nth_in1; exact Hk).
    assert (E := lsw_others M (run j) [] k t x v HM (endless_guesses _ _ _ _ _ _ j HE)
      ltac:(intros y a u (t' & Ha); destruct a; discriminate) Hk' Ht ltac:(rewrite app_nil_r; exact Hj)).
    rewrite E at 1. f_equal. etransitivity; [apply (f_equal (firstn k) El)|]. apply firstn_all_app. lia.
Qed.

End Sort.

Lemma thin_lsw_norace pl tn T (lt lq : T -> T -> bool) cap n m0 M w rs pre : platOk pl -> tuningOk pl tn -> nearMean pl ->
  (forall x, lt x x = false) -> 0 <= n <= cap -> 11 * n + 18 < 10 * intSize pl -> 0 <= M ->
  allowed (lswCallBy pl tn lt lq cap n m0) M w rs -> callerOnly pre ->
  ~ dataRace (pre ++ map fst (whist w)) /\
  forall post, view (wmain w) = HRet tt -> callerOnly post -> ~ dataRace (pre ++ map fst (whist w) ++ post).
Proof.
  intros Hpl Htn Hin Hirr Hn Hb HM Ha Hpre.
  exact (proj1 (lsw_tame pl tn Hpl Htn Hin lt lq cap n m0 Hirr Hn Hb) M w rs pre HM Ha Hpre).
Qed.

Lemma thin_lsw_same pl tn T (lt lq : T -> T -> bool) cap n m0 M w rs : platOk pl -> tuningOk pl tn -> nearMean pl ->
  (forall x, lt x x = false) -> 0 <= n <= cap -> 11 * n + 18 < 10 * intSize pl -> 0 <= M ->
  let C := lswCallBy pl tn lt lq cap n m0 in allowed C M w rs ->
  exists st, traced C M (map fst (whist w)) st /\ main st = wmain w /\ thr st = wthr w /\
    (forall x, cCells C x -> mem (sh st) x = latest (cInit C) (whist w) x) /\
    forall x v, In (x, v) rs -> cCells C x -> v = mem (sh st) x.
Proof.
  intros Hpl Htn Hin Hirr Hn Hb HM C Ha. apply (thin_same C M w rs); [apply lsw_tame; assumption| |exact HM|exact Ha].
  intro x. cbn. unfold cellsOf. lia.
Qed.

(** The guarantees for all calls. *)
Lemma call_tame pl tn T (C : call T) : platOk pl -> tuningOk pl tn -> nearMean pl -> sortCall pl tn C -> tame C.
Proof.
  intros Hpl Htn Hin HC. destruct HC as [e opt s m0 Hty Hso|T lt lq cap n m0 Hc Hn Hb].
  - apply unracing_tame, typed_unracing; [exact Hpl|exact Htn|apply Hty].
  - apply lsw_tame; try assumption. apply Hc.
Qed.

Lemma thin_call_runs pl tn T (C : call T) M w rs : platOk pl -> tuningOk pl tn -> nearMean pl -> sortCall pl tn C -> 0 <= M -> allowed C M w rs ->
  Z.of_nat (length (whist w)) <= 100 * cLen C * cLen C + 6 * cLen C + 20 /\
  view (wmain w) <> HPanic /\ (forall c, In c (wthr w) -> view c <> HPanic) /\
  (view (wmain w) = HRet tt \/ exists w', guess (cProcs C) M w w' /\ allowed C M w' []).
Proof. intros Hpl Htn Hin HC. exact (thin_runs pl tn T C M w rs Hpl Htn HC (call_tame pl tn T C Hpl Htn Hin HC)). Qed.

Lemma thin_call_goal pl tn T (C : call T) M w v rs : platOk pl -> tuningOk pl tn -> nearMean pl -> sortCall pl tn C -> 0 <= M -> allowed C M w rs ->
  view (wmain w) = HRet tt -> (forall x, cCells C x -> In (x, v x) rs) -> cGoal C v.
Proof. intros Hpl Htn Hin HC. exact (thin_goal pl tn T C M w v rs Hpl Htn HC (call_tame pl tn T C Hpl Htn Hin HC)). Qed.

Lemma thin_call_ends pl tn T (C : call T) M run : platOk pl -> tuningOk pl tn -> nearMean pl -> sortCall pl tn C -> 0 <= M ->
  ~ endless (cProcs C) M (cCells C) (cInit C) (cProg C) run.
Proof. intros Hpl Htn Hin HC. exact (thin_ends pl tn T C M run Hpl Htn HC (call_tame pl tn T C Hpl Htn Hin HC)). Qed.
