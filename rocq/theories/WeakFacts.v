(** * The sorters under the Go memory model *)

From Coq Require Import List ZArith Lia Bool Permutation.
From Verif Require Import Lang Trace HappensBefore Weak Scalar Typed Kinds Spec Lsw Calls Guarantee TraceFacts TypedFacts.
Import ListNotations.
Open Scope Z_scope.

(** States that the call can get to when reads of elements may return any value that the Go memory
    model allows. *)
Definition weakly {T} (C : call T) (M : Z) (w : wst (P := cP C) (T := T) (R := unit)) : Prop :=
  wexec (cProcs C) M (cCells C) (cInit C) (cProg C) w.

(** What the caller may see in the memory after such an execution. *)
Definition seenBy {T} (C : call T) (w : wst (P := cP C) (T := T) (R := unit)) (v : Z -> T) : Prop :=
  forall x, cCells C x -> visible (cInit C) (whist w) (EvRead 0 x) x (v x).

Lemma call_cells_dec pl tn T (C : call T) : sortCall pl tn C -> forall x, cCells C x \/ ~ cCells C x.
Proof. intros [e opt s m0 _ _|T' lt lq cap n m0 _ _ _] x; cbn; unfold cellsOf; lia. Qed.

Lemma call_goal_ext pl tn T (C : call T) : sortCall pl tn C -> forall v w, (forall x, cCells C x -> w x = v x) ->
  cGoal C v -> cGoal C w.
Proof.
  intros [e opt s m0 _ _|T' lt lq cap n m0 _ _ _] v w H; cbn [cGoal typedCall lswCallBy cCells] in *;
    rewrite (contents_map v w _ H); auto.
Qed.

Lemma weak_same pl tn T (C : call T) M w : platOk pl -> tuningOk pl tn -> sortCall pl tn C -> 0 <= M -> weakly C M w ->
  exists s, traced C M (map fst (whist w)) s /\ main s = wmain w /\ thr s = wthr w /\
    ngor (sh s) = wngor w /\ chans (sh s) = wchans w /\
    forall x, cCells C x -> mem (sh s) x = latest (cInit C) (whist w) x.
Proof.
  intros Hpl Htn HC HM Hw.
  assert (Hno : forall tr s, texec (cProcs C) M (cCells C) tr (start (cProg C) (cInit C) 0) s -> ~ dataRace tr).
  { intros tr s Ht. apply (traced_norace pl tn T C M tr s [] Hpl Htn HC); [|constructor]. exists 0. split; [lia|exact Ht]. }
  destruct (weak_strong (cProcs C) M (cCells C) (cInit C) 0 (cProg C) ltac:(lia) (call_cells_dec pl tn T C HC) Hno w Hw)
    as (s & Ht & E1 & E2 & E4 & E5 & E3).
  exists s. split; [exists 0; split; [lia|exact Ht]|]. auto.
Qed.

Lemma strong_same {T} (C : call T) M tr s : traced C M tr s ->
  exists w, weakly C M w /\ map fst (whist w) = tr /\ wmain w = main s /\ wthr w = thr s /\
    forall x, cCells C x -> latest (cInit C) (whist w) x = mem (sh s) x.
Proof. intros (mg0 & Hmg & Ht). exact (strong_weak _ _ _ _ mg0 _ Hmg tr s Ht). Qed.

Lemma weak_goal pl tn T (C : call T) M w v : platOk pl -> tuningOk pl tn -> sortCall pl tn C -> 0 <= M -> weakly C M w ->
  view (wmain w) = HRet tt -> seenBy C w v -> cGoal C v.
Proof.
  intros Hpl Htn HC HM Hw Hr Hv. destruct (weak_same pl tn T C M w Hpl Htn HC HM Hw) as (s & Ht & E1 & E2 & E4 & E5 & E3).
  assert (Hret : returned s tt) by (unfold returned; rewrite E1; exact Hr).
  assert (HR : reach C M (length (map fst (whist w))) s) by (apply reach_traced; eauto).
  destruct (g_goal pl tn Hpl Htn C HC M _ s HR tt Hret) as [HG _].
  eapply (call_goal_ext pl tn T C HC); [|exact HG]. intros x Hx. rewrite (E3 x Hx).
  eapply visible_last; [reflexivity| |exact (Hv x Hx)].
  destruct (traced_norace pl tn T C M _ s [] Hpl Htn HC Ht ltac:(constructor)) as [_ H].
  apply (H [EvRead 0 x] Hret). repeat constructor. cbn. auto.
Qed.

Lemma weak_runs pl tn T (C : call T) M w : platOk pl -> tuningOk pl tn -> sortCall pl tn C -> 0 <= M -> weakly C M w ->
  Z.of_nat (length (whist w)) <= 100 * cLen C * cLen C + 6 * cLen C + 20 /\
  view (wmain w) <> HPanic /\ (forall c, In c (wthr w) -> view c <> HPanic) /\
  (view (wmain w) = HRet tt \/ exists w', wstep (cProcs C) M (cCells C) (cInit C) w w').
Proof.
  intros Hpl Htn HC HM Hw. destruct (weak_same pl tn T C M w Hpl Htn HC HM Hw) as (s & Ht & E1 & E2 & E4 & E5 & E3).
  assert (HR : reach C M (length (map fst (whist w))) s) by (apply reach_traced; eauto).
  assert (B := g_steps pl tn Hpl Htn C HC M _ s HR). rewrite map_length in B. split; [exact B|].
  assert (NP := g_no_panic pl tn Hpl Htn C HC M _ s HR).
  split; [intro E; apply NP; left; rewrite E1; exact E|].
  split; [intros c Hc E; apply NP; right; exists c; rewrite E2; auto|].
  destruct Ht as (mg0 & Hmg & Ht). destruct s as [m ts [w0 ng mg ch]]. cbn [main thr sh ngor chans mem] in *.
  assert (HR2 : reach C M (length (map fst (whist w))) (St m ts (Sh w0 ng 0 ch))).
  { exists mg0. split; [exact Hmg|]. eapply exec_env; [apply texec_exec; exact Ht|].
    apply (env_step M (cCells C) m ts (Sh w0 ng mg ch) w0 0); auto. lia. }
  destruct (g_progress pl tn Hpl Htn C HC M _ _ HR2) as [[[] Hr]|[s' Hs]].
  - left. rewrite <- E1. exact Hr.
  - right. destruct (pstep_tstep _ _ _ Hs) as (e & He). destruct w as [wm wt wn wc h].
    cbn [wmain wthr wngor wchans whist] in *. subst wm wt wn wc.
    eexists. apply (wstep_in _ M (cCells C) (cInit C) e m ts ng ch h w0 0 s'); [lia| |exact He].
    intros t x _ Hx. rewrite (E3 x Hx). apply latest_visible.
Qed.

(** The machine is weaker than sequentially consistent memory: here the caller starts a goroutine
    that writes 1 to cell 0, and then sees the 1 and afterwards the old 0. *)
Definition staleBody (p : unit) : cmd unit Z unit := Write 0 1 (Ret tt).
Definition staleProg : cmd unit Z (Z * Z) := Fork tt (Read 0 (fun x => Read 0 (fun y => Ret (x, y)))).

Lemma stale_read : exists w, wexec staleBody 1 (fun x => x = 0) (fun _ => 0) staleProg w /\ view (wmain w) = HRet (1, 0).
Proof.
  pose (r1 := Read 0 (fun x => Read 0 (fun y => Ret (x, y))) : cmd unit Z (Z * Z)).
  pose (r2 := Read 0 (fun y => Ret (1, y)) : cmd unit Z (Z * Z)).
  pose (t0 := Ret tt : cmd unit Z unit). pose (z := fun _ : Z => 0). pose (o := fun _ : Z => 1).
  pose (h1 := [(EvGo 0 1, None)] : history (T := Z)). pose (h2 := h1 ++ [(EvWrite 1 0, Some 1)]).
  pose (h3 := h2 ++ [(EvRead 0 0, None)]). pose (h4 := h3 ++ [(EvRead 0 0, None)]).
  assert (S1 : wexec staleBody 1 (fun x => x = 0) z staleProg (Wst r1 [staleBody tt] 0 0 h1)).
  { eapply wexec_step; [apply wexec_start|].
    apply (wstep_in staleBody 1 (fun x => x = 0) z (EvGo 0 1) staleProg [] 0 0 [] z 0 (St r1 [staleBody tt] (Sh z 0 0 0))); [lia|discriminate|].
    apply (tstep_main staleBody staleProg [] (Sh z 0 0 0) r1 (Sh z 0 0 0) [staleBody tt]). reflexivity. }
  assert (S2 : wexec staleBody 1 (fun x => x = 0) z staleProg (Wst r1 [t0] 0 0 h2)).
  { eapply wexec_step; [exact S1|].
    apply (wstep_in staleBody 1 (fun x => x = 0) z (EvWrite 1 0) r1 [staleBody tt] 0 0 h1 z 0 (St r1 [t0] (Sh (upd z 0 1) 0 0 0))); [lia|discriminate|].
    apply (tstep_thr staleBody r1 [] (staleBody tt) [] (Sh z 0 0 0) t0 (Sh (upd z 0 1) 0 0 0) []). reflexivity. }
  assert (S3 : wexec staleBody 1 (fun x => x = 0) z staleProg (Wst r2 [t0] 0 0 h3)).
  { eapply wexec_step; [exact S2|].
    apply (wstep_in staleBody 1 (fun x => x = 0) z (EvRead 0 0) r1 [t0] 0 0 h2 o 0 (St r2 [t0] (Sh o 0 0 0))); [lia| |].
    - intros t x _ ->. left. exists 1%nat. split; [exists 1%nat; reflexivity|].
      intros j v (t' & H) Hb. cbn in H. apply hb_order in Hb. destruct j as [|[|[|j]]]; try lia; discriminate.
    - apply (tstep_main staleBody r1 [t0] (Sh o 0 0 0) r2 (Sh o 0 0 0) []). reflexivity. }
  exists (Wst (Ret (1, 0)) [t0] 0 0 h4). split; [|reflexivity].
  eapply wexec_step; [exact S3|].
  apply (wstep_in staleBody 1 (fun x => x = 0) z (EvRead 0 0) r2 [t0] 0 0 h3 z 0 (St (Ret (1, 0)) [t0] (Sh z 0 0 0))); [lia| |].
  - intros t x _ ->. right. split; [reflexivity|]. intros j v (t' & H).
    assert (j = 1%nat) by (cbn in H; destruct j as [|[|[|[|j]]]]; try discriminate; reflexivity). subst j. cbn.
    assert (G : forall i k, hb [EvGo 0 1; EvWrite 1 0; EvRead 0 0; EvRead 0 0] i k -> i <> 1%nat).
    { induction 1; auto.
      - intros ->. inversion H1; subst. destruct j as [|[|[|[|[|j]]]]]; try lia; inversion H2; subst; cbn in *; lia.
      - intros ->. discriminate.
      - intros ->. discriminate. }
    intro Hb. exact (G _ _ Hb eq_refl).
  - apply (tstep_main staleBody r2 [t0] (Sh z 0 0 0) (Ret (1, 0)) (Sh z 0 0 0) []). reflexivity.
Qed.
