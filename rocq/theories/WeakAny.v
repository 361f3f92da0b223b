(** * The sorters under the Go memory model, NaNs under NaNignore included *)

From Coq Require Import List ZArith Lia Bool Permutation.
From Verif Require Import Lang Trace HappensBefore Weak Scalar Typed Kinds Spec Lsw Calls Guarantee TraceFacts TypedFacts WeakFacts AnyFacts.
Import ListNotations.
Open Scope Z_scope.

Section Any.
Variables (pl : plat) (tn : tuning) (opt : Z) (e : ety) (s : slice) (m0 : Z -> elem e).
Hypothesis Hpl : platOk pl.
Hypothesis Htn : tuningOk pl tn.
Hypothesis Hty : typedSlice pl e m0 s.
Let C := typedCall pl tn opt e s m0.

Lemma any_weak_same M w : 0 <= M -> weakly C M w ->
  exists st, traced C M (map fst (whist w)) st /\ main st = wmain w /\ thr st = wthr w /\
    ngor (sh st) = wngor w /\ chans (sh st) = wchans w /\
    forall x, cCells C x -> mem (sh st) x = latest (cInit C) (whist w) x.
Proof.
  intros HM Hw.
  assert (Hno : forall tr st, texec (cProcs C) M (cCells C) tr (start (cProg C) (cInit C) 0) st -> ~ dataRace tr).
  { intros tr st Ht. apply (any_norace pl tn opt e s m0 Hpl Htn Hty M tr st []); [|constructor]. exists 0. split; [lia|exact Ht]. }
  assert (Hdec : forall x, cCells C x \/ ~ cCells C x) by (intro x; cbn; unfold cellsOf; lia).
  destruct (weak_strong (cProcs C) M (cCells C) (cInit C) 0 (cProg C) ltac:(lia) Hdec Hno w Hw)
    as (st & Ht & E1 & E2 & E4 & E5 & E3).
  exists st. split; [exists 0; split; [lia|exact Ht]|]. auto.
Qed.

Lemma any_weak M w : 0 <= M -> weakly C M w ->
  view (wmain w) <> HPanic /\ (forall c, In c (wthr w) -> view c <> HPanic) /\
  (view (wmain w) = HRet tt \/ exists w', wstep (cProcs C) M (cCells C) (cInit C) w w') /\
  (view (wmain w) = HRet tt -> forall v, seenBy C w v -> Permutation (contents v s) (contents m0 s)).
Proof.
  intros HM Hw. destruct (any_weak_same M w HM Hw) as (st & Ht & E1 & E2 & E4 & E5 & E3).
  assert (HR : reach C M (length (map fst (whist w))) st) by (apply reach_traced; eauto).
  destruct (any_call pl tn opt e s m0 Hpl Htn Hty M _ st HR) as (NP & _ & _ & _ & _ & _ & _ & HF).
  split; [intro E; apply NP; left; exact (eq_trans (f_equal view E1) E)|].
  split; [intros c Hc E; apply NP; right; exists c; split; [exact (eq_ind_r (fun l => In c l) Hc E2)|exact E]|].
  split.
  - destruct Ht as (mg0 & Hmg & Ht). destruct st as [m ts [w0 ng mg ch]]. cbn [main thr sh ngor chans mem] in *.
    assert (HR2 : reach C M (length (map fst (whist w))) (St m ts (Sh w0 ng 0 ch))).
    { exists mg0. split; [exact Hmg|]. eapply exec_env; [apply texec_exec; exact Ht|].
      apply (env_step M (cCells C) m ts (Sh w0 ng mg ch) w0 0); auto. lia. }
    destruct (any_call pl tn opt e s m0 Hpl Htn Hty M _ _ HR2) as (_ & _ & _ & _ & _ & _ & [[[] Hr]|[s' Hs]] & _).
    + left. exact (eq_trans (f_equal view (eq_sym E1)) Hr).
    + right. destruct (pstep_tstep _ _ _ Hs) as (ev & He). destruct w as [wm wt wn wc h].
      cbn [wmain wthr wngor wchans whist] in *. subst wm wt wn wc.
      eexists. apply (wstep_in _ M (cCells C) (cInit C) ev m ts ng ch h w0 0 s'); [lia| |exact He].
      intros t x _ Hx. rewrite (E3 x Hx). apply latest_visible.
  - intros Hr v Hv. assert (Hret : returned st tt) by exact (eq_trans (f_equal view E1) Hr).
    destruct (HF Hret) as [HP _]. rewrite (contents_map (mem (sh st)) v); [exact HP|].
    intros x Hx. rewrite (E3 x Hx). eapply visible_last; [reflexivity| |exact (Hv x Hx)].
    destruct (any_norace pl tn opt e s m0 Hpl Htn Hty M _ st [] Ht ltac:(constructor)) as [_ H].
    apply (H [EvRead 0 x] Hret). repeat constructor. cbn. auto.
Qed.
End Any.
