(** * Sort of collections that are too large

    The sampling loop of pivot (sortyLsw.go:66-74) adds its step to the index of the last sample.
    For a collection longer than 10/11 of the range of int that leaves the range.  Shown for every
    such length by following the one goroutine of an execution. *)

From Coq Require Import List ZArith Lia Bool.
From Verif Require Import Lang Scalar ScalarFacts Typed Kinds Spec KindsFacts Lsw Calls.
Import ListNotations.
Open Scope Z_scope.

Section Follow.
Context {P T : Type}.
Variable body : P -> cmd P T unit.

(** Running alone, [c] panics. *)
Inductive fails {A} (c : cmd P T A) (s : shared T) : Prop :=
| fails_now : view c = HPanic -> fails c s
| fails_later c' s' : exec_local body c s = Some (c', s', []) -> fails c' s' -> fails c s.

(** Running alone, [c] returns [a]. *)
Inductive gives {A} (c : cmd P T A) (s : shared T) (a : A) (s1 : shared T) : Prop :=
| gives_now : view c = HRet a -> s = s1 -> gives c s a s1
| gives_later c' s' : exec_local body c s = Some (c', s', []) -> gives c' s' a s1 -> gives c s a s1.

Lemma fails_exec {R} M Rg k (c : cmd P T R) s s0 : fails c s -> exec body M Rg k s0 (St c [] s) ->
  exists k' st, exec body M Rg k' s0 st /\ panicked st.
Proof.
  intro H. revert k. induction H as [c s E|c s c' s' E H IH]; intros k Hx.
  - exists k, (St c [] s). split; [exact Hx|]. left. exact E.
  - apply (IH (S k)). eapply exec_prog; [exact Hx|]. apply step_now. exact (step_main body c [] s c' s' [] E).
Qed.

Lemma bind_step {A B} (c : cmd P T A) (k : A -> cmd P T B) s c' s' fs : exec_local body c s = Some (c', s', fs) ->
  exec_local body (Bind c k) s = Some (Bind c' k, s', fs).
Proof.
  unfold exec_local. cbn [view]. destruct (view c); cbn [hcont]; intro E; inversion E; subst; reflexivity.
Qed.

Lemma bind_ret {A B} (c : cmd P T A) (k : A -> cmd P T B) a : view c = HRet a -> view (Bind c k) = view (k a).
Proof. intro E. cbn [view]. rewrite E. reflexivity. Qed.

Lemma fails_view {A} (c d : cmd P T A) s : view c = view d -> fails c s -> fails d s.
Proof.
  intros E H. destruct H as [H|c' s' H F].
  - apply fails_now. congruence.
  - apply (fails_later d s c' s'); [|exact F]. unfold exec_local in *. rewrite <- E. exact H.
Qed.

Lemma gives_view {A} (c d : cmd P T A) s a s1 : view c = view d -> gives c s a s1 -> gives d s a s1.
Proof.
  intros E H. destruct H as [H ->|c' s' H F].
  - apply gives_now; congruence.
  - apply (gives_later d s a s1 c' s'); [|exact F]. unfold exec_local in *. rewrite <- E. exact H.
Qed.

Lemma fails_bind {A B} (c : cmd P T A) (k : A -> cmd P T B) s : fails c s -> fails (Bind c k) s.
Proof.
  induction 1 as [c s E|c s c' s' E H IH]; [apply fails_now; cbn [view]; rewrite E; reflexivity|].
  eapply fails_later; [apply bind_step; exact E|exact IH].
Qed.

Lemma fails_then {A B} (c : cmd P T A) (k : A -> cmd P T B) s a s1 : gives c s a s1 -> fails (k a) s1 -> fails (Bind c k) s.
Proof.
  intro H; revert c s H; fix IH 3; intros c s H F; destruct H as [E ->|c' s' E H].
  - eapply fails_view; [symmetry; apply bind_ret; exact E|exact F].
  - eapply fails_later; [apply bind_step; exact E|apply IH; assumption].
Qed.

Lemma gives_bind {A B} (c : cmd P T A) (k : A -> cmd P T B) s a s1 b s2 :
  gives c s a s1 -> gives (k a) s1 b s2 -> gives (Bind c k) s b s2.
Proof.
  intro H; revert c s H; fix IH 3; intros c s H F; destruct H as [E ->|c' s' E H].
  - eapply gives_view; [symmetry; apply bind_ret; exact E|exact F].
  - eapply gives_later; [apply bind_step; exact E|apply IH; assumption].
Qed.

Lemma gives_ret {A} (a : A) s : gives (Ret a) s a s.
Proof. apply gives_now; reflexivity. Qed.

Lemma gives_read {A} i (k : T -> cmd P T A) s a s1 : gives (k (mem s i)) s a s1 -> gives (Read i k) s a s1.
Proof. intro H. eapply gives_later; [reflexivity|exact H]. Qed.

Lemma fails_loop {A S} (x : S) (b : S -> cmd P T (S + A)) s :
  fails (Bind (b x) (fun r => match r with inl x' => Loop x' b | inr a => Ret a end)) s -> fails (Loop x b) s.
Proof. intro H. eapply fails_later; [reflexivity|exact H]. Qed.

Lemma gives_loop {A S} (x : S) (b : S -> cmd P T (S + A)) s a s1 :
  gives (Bind (b x) (fun r => match r with inl x' => Loop x' b | inr a => Ret a end)) s a s1 -> gives (Loop x b) s a s1.
Proof. intro H. eapply gives_later; [reflexivity|exact H]. Qed.

Lemma fails_call {A} p (k : cmd P T A) s : fails (body p) s -> fails (Lang.Call p k) s.
Proof.
  intro H. eapply fails_later; [reflexivity|]. cbn.
  induction H as [c s E|c s c' s' E H IH]; [apply fails_now; cbn [view]; rewrite E; reflexivity|].
  eapply fails_later; [|exact IH]. unfold exec_local in *. cbn [view].
  destruct (view c); cbn [hcont]; inversion E; subst; reflexivity.
Qed.

End Follow.

Section Large.
Variable pl : plat.
Hypothesis Hpl : platOk pl.
Variable tn : tuning.
Hypothesis Htn : tuningOk pl tn.
Context {T : Type}.
Variable lt : T -> T -> bool.
Hypothesis Hlt : irreflexive lt.
Variables (x0 : T) (cap n : Z).
Hypothesis Hcap : n <= cap.
Hypothesis Hn : n < intSize pl.
Hypothesis Hlarge : 10 * intSize pl + 17 <= 11 * n.

Notation body := (lswBody (Wd := pword pl) lt cap tn (mI pl)).
Definition same0 (s : shared T) : Prop := forall i, mem s i = x0.

Lemma gives_lsw s i k r q : same0 s -> 0 <= i < cap -> 0 <= k < cap -> 0 <= r < cap -> 0 <= q < cap ->
  gives body (lsw lt cap i k r q) s false s.
Proof.
  intros Hs Hi Hk Hr Hq. unfold lsw.
  replace ((0 <=? r) && (r <? cap) && (0 <=? q) && (q <? cap)) with true by lia. cbn [negb].
  assert (G : forall j, 0 <= j < cap -> gives body (cget cap j) s x0 s).
  { intros j Hj. unfold cget. replace ((0 <=? j) && (j <? cap)) with true by lia.
    apply gives_read. rewrite Hs. apply gives_ret. }
  eapply gives_bind; [apply G; exact Hi|]. eapply gives_bind; [apply G; exact Hk|].
  rewrite Hlt. apply gives_ret.
Qed.

Lemma wq_lower : 2 ^ 30 <= @wq (pword pl).
Proof. exact (proj2 (intSize_wq pl (proj1 Hpl))). Qed.

(** One round of the sampling loop, when the sample is not less than its predecessor. *)
Lemma samples_round first step last h s : same0 s -> 0 <= h - step -> h < cap -> 0 <= h -> 0 <= step -> h <= last ->
  fails body (Loop (@iw (pword pl) (h + step)) (fun h =>
    if h <=? last then
      Loop h (fun l =>
        b <- lsw lt cap l (l - step) l (l - step) ;;
        if b : bool then
          let l := l - step in if l <=? first then done tt else goto l
        else done tt) ;;;
      goto (@iw (pword pl) (h + step))
    else done tt)%cmd) s ->
  fails body (Loop h (fun h =>
    if h <=? last then
      Loop h (fun l =>
        b <- lsw lt cap l (l - step) l (l - step) ;;
        if b : bool then
          let l := l - step in if l <=? first then done tt else goto l
        else done tt) ;;;
      goto (@iw (pword pl) (h + step))
    else done tt)%cmd) s.
Proof.
  intros Hs H1 H2 H0 H3 H4 F. apply fails_loop.
  destruct (Z.leb_spec h last) as [_|C]; [|lia].
  eapply fails_then with (a := inl (@iw (pword pl) (h + step))); [|exact F].
  eapply gives_bind; [|apply gives_ret].
  apply gives_loop. eapply gives_bind.
  - eapply gives_bind; [apply gives_lsw; auto; lia|]. cbn beta iota. apply gives_ret.
  - apply gives_ret.
Qed.

Lemma samples_out first step last h s : h < 0 -> 0 <= last ->
  fails body (Loop h (fun h =>
    if h <=? last then
      Loop h (fun l =>
        b <- lsw lt cap l (l - step) l (l - step) ;;
        if b : bool then
          let l := l - step in if l <=? first then done tt else goto l
        else done tt) ;;;
      goto (@iw (pword pl) (h + step))
    else done tt)%cmd) s.
Proof.
  intros Hh Hl. apply fails_loop. apply fails_bind.
  destruct (Z.leb_spec h last) as [_|C]; [|lia].
  apply fails_bind, fails_loop, fails_bind, fails_bind. apply fails_now. unfold lsw.
  replace ((0 <=? h) && (h <? cap) && (0 <=? h - step) && (h - step <? cap)) with false by lia. reflexivity.
Qed.

Lemma large_pivot s : same0 s -> fails body (lswPivot (Wd := pword pl) lt cap (mI pl) 0 (n - 1) (nsLong - 1)) s.
Proof.
  intro Hs. unfold lswPivot. assert (HI := intSize_eq pl). assert (HW := wq_lower).
  rewrite uw_small by lia. replace (n - 1 + 1 - 0) with n by lia. change (nsLong - 1) with 5.
  destruct (minMaxSample_ok (Wd := pword pl) n 5 ltac:(lia) ltac:(lia) ltac:(lia)) as (f & st & E & Hf & Hst & Hlast).
  destruct (minMaxSample_past (Wd := pword pl) n 5 f st _ ltac:(lia) ltac:(lia) ltac:(lia) E) as [P5 _].
  specialize (P5 eq_refl). rewrite E. replace (5 - 1) with 4 in * by lia. apply fails_bind.
  unfold lswSamples. cbn [Z.add].
  assert (Wr : forall j, 0 <= j <= 4 -> @iw (pword pl) (f + j * st) = f + j * st) by (intros; apply iw_small; nia).
  assert (Wo : @iw (pword pl) (f + 4 * st + st) = f + 5 * st - 4 * @wq (pword pl)).
  { unfold iw. replace (f + 4 * st + st + 2 * @wq (pword pl)) with (f + 5 * st - 2 * @wq (pword pl) + 1 * (4 * @wq (pword pl))) by lia.
    rewrite Z.mod_add by lia. rewrite Z.mod_small by lia. lia. }
  apply samples_round; auto; try lia. replace (f + st + st) with (f + 2 * st) by lia. rewrite Wr by lia.
  apply samples_round; auto; try lia. replace (f + 2 * st + st) with (f + 3 * st) by lia. rewrite Wr by lia.
  apply samples_round; auto; try lia. replace (f + 3 * st + st) with (f + 4 * st) by lia. rewrite Wr by lia.
  apply samples_round; auto; try lia. rewrite Wo.
  apply samples_out; lia.
Qed.

Theorem large_fails : exists k st, reach (lswCall pl tn lt cap n (fun _ => x0)) 1 k st /\ panicked st.
Proof.
  assert (F : fails body (lswSort (Wd := pword pl) lt cap tn (mI pl) n) (Sh (fun _ => x0) 0 1 0)).
  { assert (HI := intSize_eq pl). assert (HW := wq_lower). unfold lswSort. cbv zeta.
    rewrite (iw_small (n - 1)) by lia.
    assert (HL : maxLenRecFC tn <= n - 1).
    { destruct Htn as (H1 & H2 & H3 & H4 & H5). lia. }
    eapply fails_then with (a := true) (s1 := Sh (fun _ => x0) 0 1 0).
    - destruct (n - 1 <=? _); [apply gives_ret|]. eapply gives_later; [reflexivity|]. apply gives_ret.
    - destruct (Z.leb_spec (maxLenRecFC tn) (n - 1)) as [_|C]; [|lia].
      apply fails_call. cbn [lswBody]. unfold lswLong. apply fails_loop, fails_bind, fails_bind.
      apply large_pivot. intro i. reflexivity. }
  destruct (fails_exec body 1 (cellsOf (Slice 0 n)) 0 _ _ _ F (exec_refl _ _ _ _)) as (k & st & Hx & Hp).
  exists k, st. split; [|exact Hp]. exists 1. split; [lia|]. exact Hx.
Qed.

End Large.
