(** * SortSlice and SortLen under the Go memory model, with reads that see writes yet to come *)

From Coq Require Import List ZArith Lia Bool Permutation.
From Verif Require Import Lang SeqLogic ConcLogic Soundness Adequacy SafeLogic Trace HappensBefore SafeAdequacy Base Scalar Typed SeqOps TypedShort
  ScalarFacts TypedLong TypedSort AnySort Kinds Spec KindsFacts TypedApi Lsw Calls Guarantee TraceFacts TypedFacts AnyFacts Weak WeakFacts
  Veil VeilAdequacy VeilTyped Thin.
Import ListNotations.
Open Scope Z_scope.
Local Arguments Z.mul : simpl never.
Local Arguments Z.add : simpl never.
Local Arguments Z.sub : simpl never.
Local Arguments Z.pow : simpl never.

(** States that the call can get to when its reads of elements deliver anything. *)
Definition guessed {T} (C : call T) (M : Z) (w : wst (P := cP C) (T := T) (R := unit)) : Prop :=
  guesses (cProcs C) M (cProg C) w.

(** What the caller reads after the call. *)
Definition readings {T} (rs : list (Z * T)) : history (T := T) := map (fun '(x, v) => (EvRead 0 x, Some v)) rs.

(** An execution that the memory model allows: reads deliver anything, but the execution as a whole
    (with what the caller reads afterwards, if the call has returned) explains each. *)
Definition allowed {T} (C : call T) (M : Z) (w : wst (P := cP C) (T := T) (R := unit)) (rs : list (Z * T)) : Prop :=
  guessed C M w /\ (rs = [] \/ view (wmain w) = HRet tt) /\
  explained (cCells C) (cInit C) (whist w ++ readings rs).

(** Free of data races, together with what the caller does before and after, whatever is read. *)
Definition unracing {T} (C : call T) : Prop :=
  forall M mg0 tr s pre, 0 <= mg0 <= M -> texec (cProcs C) M (fun _ => False) tr (start (cProg C) (cInit C) mg0) s -> callerOnly pre ->
  ~ dataRace (pre ++ tr) /\ forall post, returned s tt -> callerOnly post -> ~ dataRace (pre ++ tr ++ post).

(** Free of data races, together with what the caller does before and after, in the executions that
    the memory model allows. *)
Definition tame {T} (C : call T) : Prop :=
  (forall M w rs pre, 0 <= M -> allowed C M w rs -> callerOnly pre ->
     ~ dataRace (pre ++ map fst (whist w)) /\
     forall post, view (wmain w) = HRet tt -> callerOnly post -> ~ dataRace (pre ++ map fst (whist w) ++ post)) /\
  forall M run k, 0 <= M -> endless (cProcs C) M (cCells C) (cInit C) (cProg C) run -> ~ dataRace (map fst (whist (run k))).

Lemma unracing_tame {T} (C : call T) : unracing C -> tame C.
Proof.
  intro Hun. split.
  - intros M w rs pre HM (Hw & _ & _) Hpre.
    destruct (guesses_exec (cProcs C) M (cInit C) 0 (cProg C) w ltac:(lia) Hw) as (s & Ht & E1 & _).
    destruct (Hun M 0 _ s pre ltac:(lia) Ht Hpre) as [H1 H2]. split; [exact H1|].
    intros post Hr Hpost. apply H2; [unfold returned; rewrite E1; exact Hr|exact Hpost].
  - intros M run k HM HE.
    destruct (guesses_exec (cProcs C) M (cInit C) 0 (cProg C) (run k) ltac:(lia) (endless_guesses _ _ _ _ _ _ _ HE)) as (s & Ht & _).
    apply (Hun M 0 _ s [] ltac:(lia) Ht ltac:(constructor)).
Qed.

Section Typed.
Variables (pl : plat) (tn : tuning).
Hypothesis Hpl : platOk pl.
Hypothesis Htn : tuningOk pl tn.
Local Existing Instance pword.
Variables (opt : Z) (e : ety) (s0 : slice).
Hypothesis Hs0 : goSlice pl s0.
Variable m0 : Z -> elem e.

Notation C := (typedCall pl tn opt e s0 m0).
Notation kd := (kindOf pl e).
Notation body := (procs pl tn e).
Notation prog := (sortProg pl tn opt e s0).
Notation R0 := (reg s0).
Notation Dp := (Z.to_nat (Z.log2 (len s0) + 2)).
Notation G := (typedGrain kd tn).

Lemma veil_vp m : vp (Gr := G) body Dp m Dp QV prog (Gst R0 R0 (fun _ => tt) MInit 0).
Proof.
  destruct Hs0 as [H0 Hb]. rewrite (intSize_eq pl) in Hb.
  assert (T1 := tuning_ins kd tn Htn). assert (T2 := tuning_rec kd tn Htn). assert (T3 := tuning_rec2 kd tn Htn).
  assert (K : forall m s x, AnySort.within s s0 -> 0 <= len s ->
    vp (Gr := G) body Dp m Dp QV (sort kd tn (mI pl) s) (Gst R0 R0 (fun _ => tt) MInit x)).
  { intros m' s x Hw Hl. assert (L : Z.log2 (len s) <= Z.log2 (len s0)) by (apply Z.log2_le_mono; unfold AnySort.within in Hw; lia).
    assert (L0 := Z.log2_nonneg (len s)).
    eapply vp_conseq; [apply (vp_bSort kd tn (mI pl) (meanOk_of pl Hpl) T1 T2 T3 Dp m' R0 s (fun _ => tt) x MInit)|lia|auto].
    - intros i. apply within_reg. exact Hw.
    - unfold AnySort.within in Hw. lia.
    - exact Hl.
    - left. reflexivity.
    - lia. }
  unfold sortProg, sortLive. destruct (isFloat e); [|apply K; [apply within_refl|lia]].
  eapply (vp_bss kd tn Dp R0 m O _ (fun s' => AnySort.within s' s0 /\ 0 <= len s')).
  - apply ss_prepass; [lia|apply own_self; exact Hb].
  - exact I.
  - intros i Hi. split; exact Hi.
  - lia.
  - intros s' x m' Hm [Hw Hl]. apply K; assumption.
Qed.

Lemma typed_finite : exists l, (forall i, R0 i -> In i l) /\ Z.of_nat (length l) < two64.
Proof. apply (slice_finite pl (off s0) (len s0) Hpl Hs0). Qed.

Theorem typed_unracing : unracing C.
Proof.
  intros M mg0 tr s pre Hmg Ht Hpre.
  destruct (vad_surroundings body Dp Dp M R0 typed_finite prog m0 mg0 MInit Hmg (or_intror eq_refl) veil_vp tr s pre Ht Hpre) as [H1 H2].
  split; [exact H1|]. intros post Hr Hpost. eapply H2; eassumption.
Qed.

End Typed.

Section General.
Context {T : Type}.
Variable C : call T.
Hypothesis Hun : tame C.
Hypothesis Hdec : forall x, cCells C x \/ ~ cCells C x.

Lemma fst_readings (rs : list (Z * T)) : callerOnly (map fst (readings rs)).
Proof.
  unfold readings, callerOnly. rewrite map_map. induction rs as [|[x v] rs IH]; constructor; [|exact IH].
  cbn. intros t H. exact H.
Qed.

(** Every read returned the last value written. *)
Lemma allowed_honest M w rs : 0 <= M -> allowed C M w rs -> honest (cCells C) (cInit C) (whist w ++ readings rs).
Proof.
  intros HM (Hw & Hr & He). apply explained_honest; [|exact He]. rewrite map_app.
  destruct (proj1 Hun M w rs [] HM (conj Hw (conj Hr He)) ltac:(constructor)) as [H1 H2].
  destruct Hr as [->|Hr]; [rewrite app_nil_r; exact H1|].
  apply (H2 _ Hr (fst_readings rs)).
Qed.

(** So it is an execution of the machine with one memory. *)
Lemma allowed_same M w rs : 0 <= M -> allowed C M w rs ->
  exists s, traced C M (map fst (whist w)) s /\ main s = wmain w /\ thr s = wthr w /\
    ngor (sh s) = wngor w /\ chans (sh s) = wchans w /\
    (forall x, cCells C x -> mem (sh s) x = latest (cInit C) (whist w) x) /\
    forall x v, In (x, v) rs -> cCells C x -> v = mem (sh s) x.
Proof.
  intros HM Ha. assert (Ho := allowed_honest M w rs HM Ha). destruct Ha as (Hw & Hr & He).
  destruct (honest_strong (cProcs C) M (cCells C) (cInit C) 0 (cProg C) w ltac:(lia) Hdec Hw (honest_prefix _ _ _ _ Ho))
    as (s & Ht & E1 & E2 & E3 & E4 & E5).
  exists s. split; [exists 0; split; [lia|exact Ht]|]. do 5 (split; [assumption|]).
  intros x v Hin Hx. rewrite (E5 x Hx).
  assert (G : forall rs h, honest (cCells C) (cInit C) (h ++ readings rs) -> In (x, v) rs -> v = latest (cInit C) h x).
  { clear -Hx. induction rs as [|[y u] rs IH]; intros h Ho Hin; [destruct Hin|].
    change (readings ((y, u) :: rs)) with ([(EvRead 0 y, Some u)] ++ readings rs) in Ho.
    rewrite app_assoc in Ho. destruct Hin as [E|Hin].
    - inversion E; subst. assert (Ho' := honest_prefix _ _ _ _ Ho).
      rewrite (Ho' (length h) 0%nat x v (nth_app_new _ _) Hx). rewrite firstn_all_app, firstn_all by lia. reflexivity.
    - rewrite (IH _ Ho Hin). rewrite last_app. reflexivity. }
  eapply G; eassumption.
Qed.

(** Conversely, all executions with one memory are such. *)
Lemma traced_allowed M tr s : traced C M tr s ->
  exists w, allowed C M w [] /\ map fst (whist w) = tr /\ wmain w = main s /\ wthr w = thr s /\
    forall x, cCells C x -> latest (cInit C) (whist w) x = mem (sh s) x.
Proof.
  intros (mg0 & Hmg & Ht).
  destruct (strong_guess (cProcs C) M (cCells C) (cInit C) mg0 (cProg C) Hmg tr s Ht) as (w & Hw & Ho & E1 & E2 & E3 & _ & _ & E4).
  exists w. split; [|auto]. split; [exact Hw|]. split; [left; reflexivity|].
  unfold readings. rewrite app_nil_r. apply honest_explained. exact Ho.
Qed.

End General.

(** ** The guarantees *)

Lemma thin_same {T} (C : call T) M w rs : tame C -> (forall x, cCells C x \/ ~ cCells C x) -> 0 <= M -> allowed C M w rs ->
  exists s, traced C M (map fst (whist w)) s /\ main s = wmain w /\ thr s = wthr w /\
    (forall x, cCells C x -> mem (sh s) x = latest (cInit C) (whist w) x) /\
    forall x v, In (x, v) rs -> cCells C x -> v = mem (sh s) x.
Proof.
  intros Hun Hdec HM Ha. destruct (allowed_same C Hun Hdec M w rs HM Ha) as (s & H1 & H2 & H3 & _ & _ & H4 & H5).
  exists s. auto.
Qed.

(** Going on from an execution that is explained so far. *)
Lemma allowed_step {T} (C : call T) M w rs s s' : tame C -> (forall x, cCells C x \/ ~ cCells C x) -> 0 <= M -> allowed C M w rs ->
  main s = wmain w -> thr s = wthr w -> ngor (sh s) = wngor w -> chans (sh s) = wchans w ->
  (forall x, cCells C x -> mem (sh s) x = latest (cInit C) (whist w) x) -> 0 <= maxg (sh s) <= M ->
  pstep (cProcs C) s s' -> exists w', guess (cProcs C) M w w' /\ allowed C M w' [].
Proof.
  intros Hun Hdec HM Ha E1 E2 E3 E4 E5 Hmg Hs. assert (Ho := allowed_honest C Hun M w rs HM Ha). apply honest_prefix in Ho.
  destruct Ha as (Hw & _ & _).
  destruct (pstep_tstep _ _ _ Hs) as (ev & He). destruct w as [wm wt wn wc h]. destruct s as [m ts [w0 ng mg ch]].
  cbn [wmain wthr wngor wchans whist main thr sh ngor chans mem maxg] in *. subst wm wt wn wc.
  assert (G := guess_in (cProcs C) M ev m ts ng ch h w0 mg s' Hmg He).
  eexists. split; [exact G|]. split; [eapply guesses_step; [exact Hw|exact G]|]. split; [left; reflexivity|].
  unfold readings. cbn [map]. rewrite app_nil_r. cbn [whist]. apply explained_app; [apply honest_explained; exact Ho|].
  intros t x v E Hx. injection E as Ee En. subst ev. cbn [noted] in En. injection En as En. rewrite <- En. apply E5. exact Hx.
Qed.

Lemma thin_runs pl tn T (C : call T) M w rs : platOk pl -> tuningOk pl tn -> sortCall pl tn C -> tame C -> 0 <= M -> allowed C M w rs ->
  Z.of_nat (length (whist w)) <= 100 * cLen C * cLen C + 6 * cLen C + 20 /\
  view (wmain w) <> HPanic /\ (forall c, In c (wthr w) -> view c <> HPanic) /\
  (view (wmain w) = HRet tt \/ exists w', guess (cProcs C) M w w' /\ allowed C M w' []).
Proof.
  intros Hpl Htn HC Hun HM Ha. assert (Hdec := call_cells_dec pl tn T C HC).
  destruct (allowed_same C Hun Hdec M w rs HM Ha) as (s & Ht & E1 & E2 & E3 & E4 & E5 & _).
  assert (HR : reach C M (length (map fst (whist w))) s) by (apply reach_traced; eauto).
  assert (B := g_steps pl tn Hpl Htn C HC M _ s HR). rewrite map_length in B. split; [exact B|].
  assert (NP := g_no_panic pl tn Hpl Htn C HC M _ s HR).
  split; [intro E; apply NP; left; rewrite E1; exact E|].
  split; [intros c Hc E; apply NP; right; exists c; rewrite E2; auto|].
  destruct Ht as (mg0 & Hmg & Ht). set (s2 := St (main s) (thr s) (Sh (mem (sh s)) (ngor (sh s)) 0 (chans (sh s)))).
  assert (HR2 : reach C M (length (map fst (whist w))) s2).
  { exists mg0. split; [exact Hmg|]. eapply exec_env; [apply texec_exec; exact Ht|]. destruct s as [m ts [w0 ng mg ch]].
    apply (env_step M (cCells C) m ts (Sh w0 ng mg ch) w0 0); auto. lia. }
  destruct (g_progress pl tn Hpl Htn C HC M _ _ HR2) as [[[] Hr]|[s' Hs]].
  - left. unfold returned in Hr. cbn [s2 main] in Hr. rewrite E1 in Hr. exact Hr.
  - right. apply (allowed_step C M w rs s2 s' Hun Hdec HM Ha E1 E2 E3 E4 E5); [cbn; lia|exact Hs].
Qed.

(** What the caller reads after the return is sorted. *)
Lemma thin_goal pl tn T (C : call T) M w v rs : platOk pl -> tuningOk pl tn -> sortCall pl tn C -> tame C -> 0 <= M -> allowed C M w rs ->
  view (wmain w) = HRet tt -> (forall x, cCells C x -> In (x, v x) rs) -> cGoal C v.
Proof.
  intros Hpl Htn HC Hun HM Ha Hr Hv. assert (Hdec := call_cells_dec pl tn T C HC).
  destruct (allowed_same C Hun Hdec M w rs HM Ha) as (s & Ht & E1 & E2 & E3 & E4 & E5 & E6).
  assert (Hret : returned s tt) by (unfold returned; rewrite E1; exact Hr).
  assert (HR : reach C M (length (map fst (whist w))) s) by (apply reach_traced; eauto).
  destruct (g_goal pl tn Hpl Htn C HC M _ s HR tt Hret) as [HG _].
  eapply (call_goal_ext pl tn T C HC); [|exact HG]. intros x Hx. apply E6; [apply Hv; exact Hx|exact Hx].
Qed.

(** It does not run forever, not even if reads may be explained arbitrarily much later. *)
Lemma thin_ends pl tn T (C : call T) M run : platOk pl -> tuningOk pl tn -> sortCall pl tn C -> tame C -> 0 <= M ->
  ~ endless (cProcs C) M (cCells C) (cInit C) (cProg C) run.
Proof.
  intros Hpl Htn HC Hun HM HE. assert (Hdec := call_cells_dec pl tn T C HC).
  set (b := 100 * cLen C * cLen C + 6 * cLen C + 20). set (i := Z.to_nat (b + 1)).
  destruct (endless_strong (cProcs C) M (cCells C) (cInit C) 0 (cProg C) run ltac:(lia) Hdec (fun k => proj2 Hun M run k HM HE) HE i) as (s & Ht & _).
  assert (HR : reach C M (length (map fst (whist (run i)))) s) by (apply reach_traced; eexists; split; [reflexivity|]; exists 0; split; [lia|exact Ht]).
  assert (B := g_steps pl tn Hpl Htn C HC M _ s HR). rewrite map_length, (endless_length _ _ _ _ _ _ _ HE) in B.
  unfold i in B. fold b in B. lia.
Qed.

(** The caller may read the last values. *)
Lemma allowed_read {T} (C : call T) M w xs : allowed C M w [] -> view (wmain w) = HRet tt ->
  allowed C M w (map (fun x => (x, latest (cInit C) (whist w) x)) xs).
Proof.
  intros (Hw & _ & He) Hr. split; [exact Hw|]. split; [right; exact Hr|].
  unfold readings in He. cbn [map] in He. rewrite app_nil_r in He.
  assert (G : forall xs h, explained (cCells C) (cInit C) h -> (forall x, latest (cInit C) h x = latest (cInit C) (whist w) x) ->
    explained (cCells C) (cInit C) (h ++ readings (map (fun x => (x, latest (cInit C) (whist w) x)) xs))).
  { clear. induction xs as [|x xs IH]; intros h He El; [rewrite app_nil_r; exact He|].
    change (readings (map _ (x :: xs))) with ([(EvRead 0 x, Some (latest (cInit C) (whist w) x))] ++ readings (map (fun x => (x, latest (cInit C) (whist w) x)) xs)).
    rewrite app_assoc. apply IH.
    - apply explained_app; [exact He|]. intros t y v E _. injection E as _ <- <-. symmetry. apply El.
    - intro y. rewrite last_app. apply El. }
  apply G; [exact He|reflexivity].
Qed.

(** The events of executions in which the elements are anything at any time. *)
Definition scrambled {T} (C : call T) (M : Z) (tr : list event) (s : st (cP C) T unit) : Prop :=
  exists mg0, 0 <= mg0 <= M /\ texec (cProcs C) M (fun _ => False) tr (start (cProg C) (cInit C) mg0) s.

Lemma scrambled_norace pl tn opt e s m0 M tr st pre : platOk pl -> tuningOk pl tn -> goSlice pl s ->
  scrambled (typedCall pl tn opt e s m0) M tr st -> callerOnly pre ->
  ~ dataRace (pre ++ tr) /\ forall post, returned st tt -> callerOnly post -> ~ dataRace (pre ++ tr ++ post).
Proof.
  intros Hpl Htn Hs (mg0 & Hmg & Ht) Hpre. exact (typed_unracing pl tn Hpl Htn opt e s Hs m0 M mg0 tr st pre Hmg Ht Hpre).
Qed.

(** Floats with NaNs under NaNignore included. *)
Lemma thin_any pl tn opt e s m0 M w rs : platOk pl -> tuningOk pl tn -> typedSlice pl e m0 s -> 0 <= M ->
  let C := typedCall pl tn opt e s m0 in allowed C M w rs ->
  view (wmain w) <> HPanic /\ (forall c, In c (wthr w) -> view c <> HPanic) /\
  (view (wmain w) = HRet tt \/ exists w', guess (cProcs C) M w w' /\ allowed C M w' []) /\
  (view (wmain w) = HRet tt -> forall v, (forall x, cellsOf s x -> In (x, v x) rs) -> Permutation (contents v s) (contents m0 s)).
Proof.
  intros Hpl Htn Hty HM C Ha.
  assert (Hun : tame C) by (apply unracing_tame, typed_unracing; [exact Hpl|exact Htn|apply Hty]).
  assert (Hdec : forall x, cCells C x \/ ~ cCells C x) by (intro x; cbn; unfold cellsOf; lia).
  destruct (allowed_same C Hun Hdec M w rs HM Ha) as (st & Ht & E1 & E2 & E3 & E4 & E5 & E6).
  assert (HR : reach C M (length (map fst (whist w))) st) by (apply reach_traced; eauto).
  destruct (any_call pl tn opt e s m0 Hpl Htn Hty M _ st HR) as (NP & _ & _ & _ & _ & _ & _ & HF).
  split; [intro E; apply NP; left; exact (eq_trans (f_equal view E1) E)|].
  split; [intros c Hc E; apply NP; right; exists c; split; [exact (eq_ind_r (fun l => In c l) Hc E2)|exact E]|].
  split.
  - destruct Ht as (mg0 & Hmg & Ht). set (s2 := St (main st) (thr st) (Sh (mem (sh st)) (ngor (sh st)) 0 (chans (sh st)))).
    assert (HR2 : reach C M (length (map fst (whist w))) s2).
    { exists mg0. split; [exact Hmg|]. eapply exec_env; [apply texec_exec; exact Ht|]. destruct st as [m ts [w0 ng mg ch]].
      apply (env_step M (cCells C) m ts (Sh w0 ng mg ch) w0 0); auto. lia. }
    destruct (any_call pl tn opt e s m0 Hpl Htn Hty M _ _ HR2) as (_ & _ & _ & _ & _ & _ & [[[] Hr]|[s' Hs]] & _).
    + left. exact (eq_trans (f_equal view (eq_sym E1)) Hr).
    + right. apply (allowed_step C M w rs s2 s' Hun Hdec HM Ha E1 E2 E3 E4 E5); [cbn; lia|exact Hs].
  - intros Hr v Hv. assert (Hret : returned st tt) by exact (eq_trans (f_equal view E1) Hr).
    destruct (HF Hret) as [HP _]. rewrite (contents_map (mem (sh st)) v); [exact HP|].
    intros x Hx. apply E6; [apply Hv; exact Hx|exact Hx].
Qed.


(** ** The statements about SortSlice and SortLen *)

Lemma thin_typed_same pl tn opt e s m0 M w rs : platOk pl -> tuningOk pl tn -> goSlice pl s -> 0 <= M ->
  let C := typedCall pl tn opt e s m0 in allowed C M w rs ->
  exists st, traced C M (map fst (whist w)) st /\ main st = wmain w /\ thr st = wthr w /\
    (forall x, cCells C x -> mem (sh st) x = latest (cInit C) (whist w) x) /\
    forall x v, In (x, v) rs -> cCells C x -> v = mem (sh st) x.
Proof.
  intros Hpl Htn Hs HM C Ha. apply (thin_same C M w rs); [apply unracing_tame, typed_unracing; assumption| |exact HM|exact Ha].
  intro x. cbn. unfold cellsOf. lia.
Qed.

Lemma thin_typed_runs pl tn opt e s m0 M w rs : platOk pl -> tuningOk pl tn -> typedSlice pl e m0 s ->
  sortable e opt (contents m0 s) -> 0 <= M ->
  let C := typedCall pl tn opt e s m0 in allowed C M w rs ->
  Z.of_nat (length (whist w)) <= 100 * len s * len s + 6 * len s + 20 /\
  view (wmain w) <> HPanic /\ (forall c, In c (wthr w) -> view c <> HPanic) /\
  (view (wmain w) = HRet tt \/ exists w', guess (cProcs C) M w w' /\ allowed C M w' []).
Proof.
  intros Hpl Htn Hty Hso HM C Ha. apply (thin_runs pl tn (elem e) C M w rs Hpl Htn); [apply call_typed; assumption| |exact HM|exact Ha].
  apply unracing_tame, typed_unracing; [exact Hpl|exact Htn|apply Hty].
Qed.

Lemma thin_typed_goal pl tn opt e s m0 M w v rs : platOk pl -> tuningOk pl tn -> typedSlice pl e m0 s ->
  sortable e opt (contents m0 s) -> 0 <= M ->
  allowed (typedCall pl tn opt e s m0) M w rs -> view (wmain w) = HRet tt ->
  (forall x, off s <= x < off s + len s -> In (x, v x) rs) ->
  Permutation (contents v s) (contents m0 s) /\ inOrder e opt (contents v s).
Proof.
  intros Hpl Htn Hty Hso HM Ha Hr Hv.
  apply (thin_goal pl tn (elem e) (typedCall pl tn opt e s m0) M w v rs Hpl Htn); [apply call_typed; assumption| |exact HM|exact Ha|exact Hr|exact Hv].
  apply unracing_tame, typed_unracing; [exact Hpl|exact Htn|apply Hty].
Qed.

Lemma thin_typed_ends pl tn opt e s m0 M run : platOk pl -> tuningOk pl tn -> typedSlice pl e m0 s ->
  sortable e opt (contents m0 s) -> 0 <= M ->
  let C := typedCall pl tn opt e s m0 in
  ~ endless (cProcs C) M (cCells C) (cInit C) (cProg C) run.
Proof.
  intros Hpl Htn Hty Hso HM C. apply (thin_ends pl tn (elem e) C M run Hpl Htn); [apply call_typed; assumption| |exact HM].
  apply unracing_tame, typed_unracing; [exact Hpl|exact Htn|apply Hty].
Qed.

Lemma thin_all {T} (C : call T) M tr s xs : traced C M tr s -> returned s tt ->
  exists w, allowed C M w (map (fun x => (x, latest (cInit C) (whist w) x)) xs) /\ map fst (whist w) = tr /\
    wmain w = main s /\ wthr w = thr s /\ forall x, cCells C x -> latest (cInit C) (whist w) x = mem (sh s) x.
Proof.
  intros Ht Hr. destruct (traced_allowed C M tr s Ht) as (w & Hw & E1 & E2 & E3 & E4). exists w.
  split; [apply allowed_read; [exact Hw|rewrite E2; exact Hr]|auto].
Qed.
