(** * A Lesswap that panics in the caller's goroutine

    The panic unwinds Sort; if somebody recovers it, the program goes on, and so do the goroutines
    that Sort has started. *)

From Coq Require Import List ZArith Lia Bool Permutation.
From Verif Require Import Lang ConcLogic Soundness Adequacy Scalar Typed Kinds Spec Lsw Calls Guarantee TopFacts.
Import ListNotations.
Open Scope Z_scope.

(** ** Specification *)

(** What remains of a call when the caller's goroutine leaves it. *)
Definition remains {P T} (s : st P T unit) : st P T unit := St (Ret tt) (thr s) (sh s).

(** [abandoned C M k s]: the caller has left the call while it was about to read an element, in
    the middle of a Lesswap that has not yet exchanged anything; [k] steps were made by all goroutines,
    before and after.  (The caller, and everybody else, leave the collection alone afterwards.) *)
Inductive abandoned {T} (C : call T) (M : Z) : nat -> st (cP C) T unit -> Prop :=
| ab_leave k s x : reach C M k s -> access (main s) = Some (x, false) -> abandoned C M k (remains s)
| ab_prog k s s' : abandoned C M k s -> pstep (cProcs C) s s' -> abandoned C M (S k) s'
| ab_env k s s' : abandoned C M k s -> estep M (cCells C) s s' -> abandoned C M k s'.

(** All goroutines have ended, but for at most one that waits for somebody to receive from it. *)
Definition settled {P T R} (s : st P T R) : Prop :=
  exists i, forall j c, nth_error (thr s) j = Some c ->
    view c = HRet tt \/ j = i /\ exists v k, view c = HSend v k.

(** ** Proofs *)

(** The same execution, with the caller not moving. *)
Lemma frozen_caller {T} (C : call T) M k s : abandoned C M k s ->
  main s = Ret tt /\ exists m x, reach C M k (St m (thr s) (sh s)) /\ access m = Some (x, false).
Proof.
  induction 1 as [k s x HR Ha|k s s' H IH Hs|k s s' H IH Hs].
  - split; [reflexivity|]. exists (main s), x. cbn [remains thr sh]. destruct s. split; [exact HR|exact Ha].
  - destruct IH as (E & m & x & (mg & Hmg & He) & Ha).
    assert (G : main s' = Ret tt /\ pstep (cProcs C) (St m (thr s) (sh s)) (St m (thr s') (sh s'))).
    { destruct Hs as [s s' [m' ts s0 m1 s0' fs Hl|m' l1 c l2 s0 c' s0' fs Hl|m' l1 c l2 s0 v k1 k2 H1 H2
        |m' l1 c l2 s0 v k1 k2 H1 H2|m' l1 c1 l2 c2 l3 s0 v k1 k2 H1 H2|m' l1 c1 l2 c2 l3 s0 v k1 k2 H1 H2]
        |m' ts s0 k1 z Hz|m' l1 c l2 s0 k1 z Hz]; cbn [main thr sh] in *; subst m'; try discriminate;
        (split; [reflexivity|]).
      - apply step_now, step_thr. exact Hl.
      - eapply step_now, step_thr_thr1; eassumption.
      - eapply step_now, step_thr_thr2; eassumption.
      - apply step_stale_thr. exact Hz. }
    destruct G as [G1 G2]. split; [exact G1|]. exists m, x. split; [|exact Ha]. exists mg. split; [exact Hmg|].
    eapply exec_prog; eassumption.
  - destruct IH as (E & m & x & (mg & Hmg & He) & Ha). destruct Hs as [m' ts s mem' mg' H1 H2]. cbn [main thr sh] in *.
    split; [exact E|]. exists m, x. split; [|exact Ha]. exists mg. split; [exact Hmg|].
    eapply exec_env; [exact He|]. constructor; assumption.
Qed.

Lemma abandoned_exec {T} (C : call T) M k s j s' : abandoned C M k s -> exec (cProcs C) M (cCells C) j s s' -> abandoned C M (j + k) s'.
Proof.
  intros H He. induction He as [s|j s s1 s2 H1 IH Hs|j s s1 s2 H1 IH Hs]; [exact H| |].
  - exact (ab_prog C M _ _ _ (IH H) Hs).
  - exact (ab_env C M _ _ _ (IH H) Hs).
Qed.

Section Ad.
Context {Gr : grain}.
Context {P T R : Type}.
Variable body : P -> cmd P T unit.
Variables (Dm D : nat) (M : Z) (R0 : cells) (Qm : R -> nat -> gst T -> Prop).
Hypothesis R0fin : exists l, (forall i, R0 i -> In i l) /\ Z.of_nat (length l) < two64.
Notation WP := (wp body (wpT body Dm) D Qm).
Notation WPT := (wpT body Dm).

(** Goroutines that cannot move while the caller does not. *)
Definition parked (e : pent (P := P) (T := T)) : Prop :=
  view (ec e) = HRet tt \/ part1 (eg e) = 1 /\ exists v k, view (ec e) = HSend v k.

Lemma parked_or_steps s gm (pool : list (pent (P := P) (T := T))) deps : GG (Gr := Gr) False M R0 gm (map eg pool) deps s ->
  Forall (fun e => WPT (en e) (ec e) (eg e)) pool -> live gm ->
  ((exists e x, In e pool /\ exec_local body (ec e) s = Some x) \/ Forall parked pool) /\ sumf part1 (map eg pool) <= 1.
Proof.
  intros HG HP Hl.
  assert (HL : sumf last1 (map eg pool) = 0 /\ sumf part1 (map eg pool) <= 1).
  { assert (Hph := gg_phase _ _ _ _ _ _ HG). unfold Soundness.phase in Hph. unfold live in Hl. destruct (md gm); try contradiction.
    - destruct Hph as (E & _). rewrite E. cbn. lia.
    - destruct Hph as (E & _). rewrite E. cbn. lia.
    - destruct (a_main a); [|contradiction]. destruct Hph as (_ & E1 & E2). rewrite E1, E2. destruct (a_join a); lia. }
  destruct HL as [HL HS]. split; [|exact HS]. assert (Hok := gg_pool _ _ _ _ _ _ HG). clear HG HS.
  induction pool as [|e pool IH]; [right; constructor|].
  cbn [map] in *. rewrite sumf_cons in HL. inversion Hok as [|? ? Hok1 Hok2]; subst. inversion HP as [|? ? HP1 HP2]; subst.
  assert (N1 := sumf_nonneg last1 (map eg pool) last1_nonneg). assert (N3 := last1_nonneg (eg e)).
  assert (A : (exists x, exec_local body (ec e) s = Some x) \/ parked e).
  { unfold parked. destruct HP1 as [HW]. unfold pool_ok in Hok1.
    destruct HW as [a Hd Hv Hq|n' c' Hd Hv En HW|n' i k0 Hd Hv En Hi0 Hi HW|n' i x k0 Hd Hv En Hi0 Hi Hz HW
    |n' p k0 Hd Hv En Hi0 HW|n' k0 Hd Hv En Hi0 HW|n' k0 a Hd Hv En Em Ec Ej HW|n' k0 Pr Hd Hv En Em Hs Hne HW
    |n' k0 a Hd Hv En Em Ec Et Ej H2 HW|n' k0 a Hd Hv En Em Ec Ej HPr HW
    |n' p k0 a d1 P1 P2 n1 n2 Hd Hv En Em Ec Ej Hd1 Hn1 Hn2 HPr Hnn HWc HW
    |n' p k0 a dj d2 r2 post n1 n2 Hd Hv En Em Ea Ec Et Ej Hdj Hd2 Hr2 Hne Hdec Hnn HWc HW
    |n' v k0 j Hd Hv En Em HPr HW|n' v k0 Hd Hv En Em HW
    |n' k0 a j Hd Hv En Em Ej HW|n' k0 Pf Hd Hv En Em HW];
    try (left; eexists; unfold exec_local; rewrite Hv; reflexivity).
    - right; left. destruct a. exact Hv.
    - right; right. unfold part1. rewrite Em. split; [reflexivity|eauto].
    - exfalso. unfold last1 at 1 in HL. rewrite Em in HL. lia.
    - exfalso. rewrite Em in Hok1. destruct Hok1; congruence.
    - exfalso. rewrite Em in Hok1. exact Hok1. }
  destruct A as [(x & A)|A]; [left; exists e, x; split; [left; reflexivity|exact A]|].
  destruct IH as [(e' & x & Hin & He)|IH]; try assumption; try lia.
  - left. exists e', x. split; [right; exact Hin|exact He].
  - right. constructor; assumption.
Qed.

Lemma parked_one (pool : list (pent (P := P) (T := T))) : Forall parked pool -> sumf part1 (map eg pool) <= 1 ->
  exists i, forall j c, nth_error (map ec pool) j = Some c -> view c = HRet tt \/ j = i /\ exists v k, view c = HSend v k.
Proof.
  assert (Z0 : forall pool, Forall parked pool -> sumf part1 (map eg pool) <= 0 ->
    forall j c, nth_error (map ec pool) j = Some c -> view c = HRet tt).
  { clear pool. induction pool as [|e pool IH]; intros HP HS j c Hj; [destruct j; discriminate|].
    cbn [map] in *. rewrite sumf_cons in HS. inversion HP as [|? ? HP1 HP2]; subst.
    assert (N2 := sumf_nonneg part1 (map eg pool) part1_nonneg). assert (N4 := part1_nonneg (eg e)).
    destruct j as [|j]; [injection Hj as <-; destruct HP1 as [E|[E _]]; [exact E|lia]|].
    apply (IH HP2 ltac:(lia) j c Hj). }
  induction pool as [|e pool IH]; intros HP HS; [exists O; intros [|j] c Hj; discriminate|].
  cbn [map] in *. rewrite sumf_cons in HS. inversion HP as [|? ? HP1 HP2]; subst. assert (N4 := part1_nonneg (eg e)).
  destruct HP1 as [A|[A1 A2]].
  - destruct (IH HP2 ltac:(lia)) as (i & Hi). exists (S i). intros [|j] c Hj.
    + injection Hj as <-. left. exact A.
    + cbn [nth_error] in Hj. destruct (Hi j c Hj) as [B|[-> B]]; [left; exact B|right; split; [reflexivity|exact B]].
  - exists O. intros [|j] c Hj.
    + injection Hj as <-. right. split; [reflexivity|exact A2].
    + cbn [nth_error] in Hj. left. apply (Z0 pool HP2 ltac:(lia) j c Hj).
Qed.

Lemma reading_live {A} D' (Q : A -> nat -> gst T -> Prop) n (c : cmd P T A) g x w :
  wp body WPT D' Q n c g -> access c = Some (x, w) -> live g.
Proof. intros HW Ha. unfold access in Ha. destruct HW; rewrite H0 in Ha; try discriminate; assumption. Qed.

Variables (N : nat) (c0 : cmd P T R) (m0 : Z -> T) (mg0 : Z) (md0 : mode T).
Hypothesis Hmg0 : 0 <= mg0 <= M.
Hypothesis Hmd0 : md0 = MSeq \/ md0 = MInit.
Hypothesis HW0 : WP N c0 (Gst R0 R0 m0 md0 0).

Theorem ad_left k m ts w x b : exec body M R0 k (start c0 m0 mg0) (St m ts w) -> access m = Some (x, b) ->
  (exists l1 c l2 y, ts = l1 ++ c :: l2 /\ exec_local body c w = Some y) \/
  exists i, forall j c, nth_error ts j = Some c -> view c = HRet tt \/ j = i /\ exists v k, view c = HSend v k.
Proof.
  intros H Ha. destruct (reach_inv body Dm D M R0 Qm R0fin N c0 m0 mg0 md0 Hmg0 Hmd0 HW0 k _ H) as (gm & nm & pool & deps & HW & HP & Ht & HG & Hn).
  cbn [main thr sh] in *. destruct (parked_or_steps w gm pool deps HG HP (reading_live _ _ _ _ _ _ _ HW Ha)) as [[(e & y & Hin & He)|Hp] HS].
  - left. destruct (in_split _ _ Hin) as (p1 & p2 & ->). exists (map ec p1), (ec e), (map ec p2), y.
    split; [rewrite Ht, map_app; reflexivity|exact He].
  - right. rewrite Ht. apply parked_one; assumption.
Qed.

End Ad.

Section Calls.
Variables (pl : plat) (tn : tuning).
Hypothesis Hpl : platOk pl.
Hypothesis Htn : tuningOk pl tn.
Context {T : Type}.
Variable C : call T.
Hypothesis HC : sortCall pl tn C.
Variable M : Z.

(** Goroutines go on until [settled]. *)
Lemma left_progress k s : abandoned C M k s -> settled s \/ exists s', pstep (cProcs C) s s'.
Proof.
  intro H. destruct (frozen_caller C M k s H) as (E & m & x & (mg & Hmg & He) & Ha).
  assert (HW := call_certified pl tn T C MInit Hpl Htn HC (or_introl eq_refl)).
  destruct (ad_left _ _ _ M (cCells C) _ (call_finite pl tn T C Hpl HC) _ _ _ mg MInit Hmg (or_intror eq_refl) HW k m (thr s) (sh s) x false He Ha)
    as [(l1 & c & l2 & [[c' w'] fs] & Et & Hl)|Hs].
  - right. destruct s as [m1 ts w]. cbn [main thr sh] in *. subst ts. eexists. apply step_now, step_thr. exact Hl.
  - left. exact Hs.
Qed.

Lemma left_safe k s : abandoned C M k s ->
  ~ panicked s /\ ~ race s /\ (forall x w, In (Some (x, w)) (accesses s) -> cCells C x) /\
  Z.of_nat k <= 100 * cLen C * cLen C + 6 * cLen C + 20.
Proof.
  intro H. destruct (frozen_caller C M k s H) as (E & m & x & HR & Ha).
  assert (A : accesses s = None :: map access (thr s)) by (unfold accesses; rewrite E; reflexivity).
  split; [|split; [|split]].
  - intros [Hp|Hp]; [rewrite E in Hp; discriminate|].
    apply (g_no_panic pl tn Hpl Htn C HC M k _ HR). right. exact Hp.
  - intros (i & j & y & wi & wj & Hij & Hi & Hj & Hw). rewrite A in Hi, Hj. apply (g_no_race pl tn Hpl Htn C HC M k _ HR).
    exists i, j, y, wi, wj. unfold accesses. cbn [main thr].
    destruct i as [|i]; [discriminate|]. destruct j as [|j]; [discriminate|]. auto.
  - intros y w Hin. rewrite A in Hin. destruct Hin as [Hin|Hin]; [discriminate|].
    apply (g_in_bounds pl tn Hpl Htn C HC M k _ HR y w). right. exact Hin.
  - exact (g_steps pl tn Hpl Htn C HC M k _ HR).
Qed.

Lemma left_settles k s : abandoned C M k s -> exists j s', abandoned C M (j + k) s' /\ exec (cProcs C) M (cCells C) j s s' /\ settled s'.
Proof.
  set (B := 100 * cLen C * cLen C + 6 * cLen C + 20).
  assert (G : forall n k s, abandoned C M k s -> B - Z.of_nat k < Z.of_nat n ->
    exists j s', abandoned C M (j + k) s' /\ exec (cProcs C) M (cCells C) j s s' /\ settled s').
  { induction n as [|n IH]; intros k0 s0 Hr Hn.
    - assert (H := proj2 (proj2 (proj2 (left_safe k0 s0 Hr)))). fold B in H. lia.
    - destruct (left_progress k0 s0 Hr) as [Hs|[s1 Hs]].
      + exists O, s0. split; [exact Hr|]. split; [constructor|exact Hs].
      + destruct (IH (S k0) s1 (ab_prog C M k0 s0 s1 Hr Hs) ltac:(lia)) as (j & s' & H1 & H2 & H3).
        exists (j + 1)%nat, s'. replace (j + 1 + k0)%nat with (j + S k0)%nat by lia. split; [exact H1|]. split; [|exact H3].
        eapply exec_trans; [|exact H2]. eapply exec_prog; [constructor|exact Hs]. }
  intro H. apply (G (S (Z.to_nat B)) k s H). lia.
Qed.

Lemma left_single k s : abandoned C M k s -> M <= 1 \/ cLen C < recLimit tn C -> thr s = [].
Proof.
  intros H Hs. destruct (frozen_caller C M k s H) as (E & m & x & HR & Ha).
  exact (proj1 (g_single pl tn Hpl Htn C HC M k _ HR Hs)).
Qed.

End Calls.

Lemma settled_stuck {P T} (body : P -> cmd P T unit) (s s' : st P T unit) : main s = Ret tt -> settled s -> ~ pstep body s s'.
Proof.
  intros E (i & Hi) Hs.
  assert (K : forall l1 c l2, thr s = l1 ++ c :: l2 -> view c = HRet tt \/ exists v k, view c = HSend v k).
  { intros l1 c l2 Et. destruct (Hi (length l1) c) as [H|[_ H]]; [|left; exact H|right; exact H].
    rewrite Et, nth_error_app2, Nat.sub_diag by lia. reflexivity. }
  destruct Hs as [s s' [m ts s0 m1 s0' fs Hl|m l1 c l2 s0 c' s0' fs Hl|m l1 c l2 s0 v k1 k2 H1 H2
        |m l1 c l2 s0 v k1 k2 H1 H2|m l1 c1 l2 c2 l3 s0 v k1 k2 H1 H2|m l1 c1 l2 c2 l3 s0 v k1 k2 H1 H2]
        |m ts s0 k1 z Hz|m l1 c l2 s0 k1 z Hz]; cbn [main thr sh] in *; subst m; try discriminate.
  - specialize (K l1 c l2 eq_refl). unfold exec_local in Hl. destruct K as [K|(v & k & K)]; rewrite K in Hl; discriminate.
  - specialize (K (l1 ++ c1 :: l2) c2 l3 ltac:(rewrite <- app_assoc; reflexivity)). destruct K as [K|(v1 & k & K)]; congruence.
  - specialize (K l1 c1 (l2 ++ c2 :: l3) eq_refl). destruct K as [K|(v1 & k & K)]; congruence.
  - specialize (K l1 c l2 eq_refl). destruct K as [K|(v & k & K)]; congruence.
Qed.

Section Sort.
Variables (pl : plat) (tn : tuning).
Hypothesis Hpl : platOk pl.
Hypothesis Htn : tuningOk pl tn.
Context {T : Type}.
Variables (lt : T -> T -> bool) (cap n : Z) (m0 : Z -> T).
Hypothesis Hlt : irreflexive lt.
Hypothesis Hn : 0 <= n <= cap.
Hypothesis Hb : 11 * n + 18 < 10 * intSize pl.
Notation C := (lswCall pl tn lt cap n m0).
Notation C0 := (lswCallBy pl tn lt (fun _ _ => false) cap n m0).

Lemma abandoned_any M k s : abandoned C M k s -> abandoned C0 M k s.
Proof.
  induction 1 as [k s x HR Ha|k s s' H IH Hs|k s s' H IH Hs].
  - exact (ab_leave C0 M k s x HR Ha).
  - exact (ab_prog C0 M k s s' IH Hs).
  - exact (ab_env C0 M k s s' IH Hs).
Qed.

Let HC : sortCall pl tn C0 := call_by pl tn T lt _ cap n m0 (consistent_none lt Hlt) Hn Hb.

Theorem lesswap_panic M k s : abandoned C M k s ->
  ~ panicked s /\ ~ race s /\ (forall x w, In (Some (x, w)) (accesses s) -> 0 <= x < n) /\
  Z.of_nat k <= 100 * n * n + 6 * n + 20 /\
  (M <= 1 \/ n < 2 * (maxLenRecFC tn + 1) -> thr s = []) /\
  (settled s <-> forall s', ~ pstep (cProcs C) s s').
Proof.
  intro H. assert (Hz := abandoned_any M k s H).
  destruct (left_safe pl tn Hpl Htn C0 HC M k s Hz) as (H1 & H2 & H3 & H4).
  split; [exact H1|]. split; [exact H2|]. split; [intros x w Hx; specialize (H3 x w Hx); cbn in H3; unfold cellsOf in H3; cbn [off len] in H3; lia|].
  split; [exact H4|]. split; [exact (left_single pl tn Hpl Htn C0 HC M k s Hz)|].
  split.
  - intros Hs s'. apply settled_stuck; [|exact Hs]. exact (proj1 (frozen_caller C M k s H)).
  - intro Hs. destruct (left_progress pl tn Hpl Htn C0 HC M k s Hz) as [A|[s' A]]; [exact A|destruct (Hs s' A)].
Qed.

(** Whenever nobody writes, and so in the end, all elements are there. *)
Theorem lesswap_panic_keeps M k s : abandoned C M k s -> (forall x, ~ In (Some (x, true)) (accesses s)) ->
  Permutation (contents (mem (sh s)) (Slice 0 n)) (contents m0 (Slice 0 n)).
Proof.
  intros H Hw. destruct (frozen_caller C M k s H) as (E & m & x & HR & Ha).
  apply (lsw_permuted pl tn T lt cap n m0 M k _ Hpl Htn Hlt Hn Hb HR). intros y [Hy|Hy].
  - cbn [main] in Hy. rewrite Ha in Hy. discriminate.
  - apply (Hw y). right. exact Hy.
Qed.

Lemma settled_quiet M k s : abandoned C M k s -> settled s -> forall x w, ~ In (Some (x, w)) (accesses s).
Proof.
  intros H (i & Hi) x w [Hin|Hin].
  - rewrite (proj1 (frozen_caller C M k s H)) in Hin. discriminate.
  - apply in_map_iff in Hin. destruct Hin as (c & E & Hc). apply In_nth_error in Hc. destruct Hc as (j & Hc).
    unfold access in E. destruct (Hi j c Hc) as [V|(_ & v & k0 & V)]; rewrite V in E; discriminate.
Qed.

Theorem lesswap_panic_settles M k s : abandoned C M k s ->
  exists j s', exec (cProcs C) M (cCells C) j s s' /\ settled s' /\
    Permutation (contents (mem (sh s')) (Slice 0 n)) (contents m0 (Slice 0 n)).
Proof.
  intro H. destruct (left_settles pl tn Hpl Htn C0 HC M k s (abandoned_any M k s H)) as (j & s' & H1 & H2 & H3).
  assert (H4 := abandoned_exec C M k s j s' H H2).
  exists j, s'. split; [exact H2|]. split; [exact H3|]. apply (lesswap_panic_keeps M (j + k) s' H4).
  intros x. exact (settled_quiet M (j + k) s' H4 H3 x true).
Qed.

End Sort.
