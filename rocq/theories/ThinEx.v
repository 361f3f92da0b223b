(** * Examples: values out of thin air *)

From Coq Require Import List ZArith Lia Bool Permutation.
From Verif Require Import Lang Trace HappensBefore Weak Scalar Typed Kinds Spec Lsw Calls Guarantee TraceFacts WeakFacts Witness Examples Thin ThinTyped.
Import ListNotations.
Open Scope Z_scope.

(** The caller starts a goroutine that copies cell 1 to cell 0, copies cell 0 to cell 1 itself and
    returns what it has read.  Both cells are 0. *)
Definition airBody (p : unit) : cmd unit Z unit := Read 1 (fun x => Write 0 x (Ret tt)).
Definition airProg : cmd unit Z Z := Fork tt (Read 0 (fun x => Write 1 x (Ret x))).

Lemma air_explained : exists w, guesses airBody 1 airProg w /\ explained (fun x => x = 0 \/ x = 1) (fun _ => 0) (whist w) /\
  view (wmain w) = HRet 42.
Proof.
  pose (r1 := Read 0 (fun x => Write 1 x (Ret x)) : cmd unit Z Z).
  pose (r2 := Write 1 42 (Ret 42) : cmd unit Z Z). pose (r3 := Ret 42 : cmd unit Z Z).
  pose (t2 := Write 0 42 (Ret tt) : cmd unit Z unit). pose (t3 := Ret tt : cmd unit Z unit).
  pose (z := fun _ : Z => 42).
  pose (h1 := [(EvGo 0 1, None)] : history (T := Z)). pose (h2 := h1 ++ [(EvRead 0 0, Some 42)]).
  pose (h3 := h2 ++ [(EvWrite 0 1, Some 42)]). pose (h4 := h3 ++ [(EvRead 1 1, Some 42)]). pose (h5 := h4 ++ [(EvWrite 1 0, Some 42)]).
  assert (S1 : guesses airBody 1 airProg (Wst r1 [airBody tt] 0 0 h1)).
  { eapply guesses_step; [apply guesses_start|].
    apply (guess_in airBody 1 (EvGo 0 1) airProg [] 0 0 [] z 0 (St r1 [airBody tt] (Sh z 0 0 0))); [lia|].
    apply (tstep_main airBody airProg [] (Sh z 0 0 0) r1 (Sh z 0 0 0) [airBody tt]). reflexivity. }
  assert (S2 : guesses airBody 1 airProg (Wst r2 [airBody tt] 0 0 h2)).
  { eapply guesses_step; [exact S1|].
    apply (guess_in airBody 1 (EvRead 0 0) r1 [airBody tt] 0 0 h1 z 0 (St r2 [airBody tt] (Sh z 0 0 0))); [lia|].
    apply (tstep_main airBody r1 [airBody tt] (Sh z 0 0 0) r2 (Sh z 0 0 0) []). reflexivity. }
  assert (S3 : guesses airBody 1 airProg (Wst r3 [airBody tt] 0 0 h3)).
  { eapply guesses_step; [exact S2|].
    apply (guess_in airBody 1 (EvWrite 0 1) r2 [airBody tt] 0 0 h2 z 0 (St r3 [airBody tt] (Sh (upd z 1 42) 0 0 0))); [lia|].
    apply (tstep_main airBody r2 [airBody tt] (Sh z 0 0 0) r3 (Sh (upd z 1 42) 0 0 0) []). reflexivity. }
  assert (S4 : guesses airBody 1 airProg (Wst r3 [t2] 0 0 h4)).
  { eapply guesses_step; [exact S3|].
    apply (guess_in airBody 1 (EvRead 1 1) r3 [airBody tt] 0 0 h3 z 0 (St r3 [t2] (Sh z 0 0 0))); [lia|].
    apply (tstep_thr airBody r3 [] (airBody tt) [] (Sh z 0 0 0) t2 (Sh z 0 0 0) []). reflexivity. }
  exists (Wst r3 [t3] 0 0 h5). split; [|split; [|reflexivity]].
  { eapply guesses_step; [exact S4|].
    apply (guess_in airBody 1 (EvWrite 1 0) r3 [t2] 0 0 h4 z 0 (St r3 [t3] (Sh (upd z 0 42) 0 0 0))); [lia|].
    apply (tstep_thr airBody r3 [] t2 [] (Sh z 0 0 0) t3 (Sh (upd z 0 42) 0 0 0) []). reflexivity. }
  assert (G : forall i k, hb [EvGo 0 1; EvRead 0 0; EvWrite 0 1; EvRead 1 1; EvWrite 1 0] i k ->
    i = 0%nat \/ (i = 1 /\ k = 2)%nat \/ (i = 3 /\ k = 4)%nat).
  { induction 1 as [i j ei ej t Hij H1 H2 H3 H4|i j t u ej Hij H1 H2 H3|i j t u Hij H1 H2|i j k H1 IH1 H2 IH2]; [| | |lia].
    - destruct i as [|[|[|[|[|i]]]]]; destruct j as [|[|[|[|[|j]]]]]; try lia; cbn in H1, H2;
        inversion H1; inversion H2; subst; cbn in H3, H4; try lia; destruct j; discriminate.
    - destruct i as [|[|[|[|[|i]]]]]; try lia; try discriminate; destruct i; discriminate.
    - destruct i as [|[|[|[|[|i]]]]]; try lia; try discriminate; destruct i; discriminate. }
  assert (W : forall x j v, writes h5 x j v -> (x = 1 /\ j = 2%nat) \/ (x = 0 /\ j = 4%nat)).
  { intros x j v (t & H). destruct j as [|[|[|[|[|j]]]]]; cbn in H; inversion H; auto; destruct j; discriminate. }
  cbn [whist]. intros n t x v Hn _.
  assert (E : (n = 1%nat /\ x = 0 /\ v = 42) \/ (n = 3%nat /\ x = 1 /\ v = 42)).
  { destruct n as [|[|[|[|[|n]]]]]; cbn in Hn; inversion Hn; auto; destruct n; discriminate. }
  destruct E as [(-> & -> & ->)|(-> & -> & ->)]; left.
  - exists 4%nat. split; [exists 1%nat; reflexivity|]. split.
    + intro Hb. apply G in Hb. lia.
    + intros j v Hw Hb. apply hb_order in Hb. apply W in Hw. lia.
  - exists 2%nat. split; [exists 0%nat; reflexivity|]. split.
    + intro Hb. apply hb_order in Hb. lia.
    + intros j v Hw Hb. apply hb_order in Hb. apply W in Hw. lia.
Qed.

(** When reads see only earlier writes (the machine of [Weak.v]), it returns 0. *)
Definition airMain (c : cmd unit Z Z) : Prop :=
  c = airProg \/ c = Read 0 (fun x => Write 1 x (Ret x)) \/ c = Write 1 0 (Ret 0) \/ c = Ret 0.
Definition airThr (c : cmd unit Z unit) : Prop := c = airBody tt \/ c = Write 0 0 (Ret tt) \/ c = Ret tt.

Lemma air_weak w : wexec airBody 1 (fun x => x = 0 \/ x = 1) (fun _ => 0) airProg w ->
  airMain (wmain w) /\ Forall airThr (wthr w) /\ forall x j v, writes (whist w) x j v -> v = 0.
Proof.
  intro H. induction H as [|w w' H IH Hs].
  - split; [left; reflexivity|]. split; [constructor|]. intros x j v (t & E). destruct j; discriminate.
  - destruct IH as (H1 & H2 & H3). destruct Hs as [e m ts ng ch h mm mg s' Hmg Hvis Hst].
    cbn [wmain wthr whist] in *.
    assert (V : forall t x, e = EvRead t x -> x = 0 \/ x = 1 -> mm x = 0).
    { intros t x E Hx. destruct (Hvis t x E Hx) as [(j & Hj & _)|[E0 _]]; [exact (H3 _ _ _ Hj)|exact E0]. }
    assert (K : airMain (main s') /\ Forall airThr (thr s') /\ forall t x, e = EvWrite t x -> mem (sh s') x = 0).
    { clear H Hvis H3 Hmg. remember (St m ts (Sh mm ng mg ch)) as s eqn:Es.
      destruct Hst as [m0 ts0 s m' s1 fs Hx|m0 l1 c l2 s c' s1 fs Hx|m0 l1 c l2 s v k k' Hr Hr'|m0 l1 c l2 s v k k' Hr Hr'|m0 l1 c1 l2 c2 l3 s v k k' Hr Hr'|m0 l1 c1 l2 c2 l3 s v k k' Hr Hr'|m0 ts0 s k z Hr|m0 l1 c l2 s k z Hr]; inversion Es; subst; clear Es; cbn [main thr sh mem].
      - destruct H1 as [E|[E|[E|E]]]; subst; cbn in Hx; inversion Hx; subst; cbn [mem].
        + split; [right; left; reflexivity|]. split; [apply Forall_app; split; [exact H2|constructor; [left; reflexivity|constructor]]|discriminate].
        + split; [right; right; left; rewrite (V 0%nat 0 eq_refl ltac:(auto)); reflexivity|]. rewrite app_nil_r. split; [exact H2|discriminate].
        + split; [right; right; right; reflexivity|]. rewrite app_nil_r. split; [exact H2|]. intros t x E. inversion E; subst. reflexivity.
      - apply Forall_app in H2. destruct H2 as [F1 F2]. inversion F2 as [|? ? F3 F4]; subst.
        assert (G : airThr c' /\ fs = [] /\ forall t x, Trace.label (S (length l1)) (length (l1 ++ c :: l2)) c = EvWrite t x -> mem s1 x = 0).
        { destruct F3 as [E|[E|E]]; subst; cbn in Hx; inversion Hx; subst; cbn [mem].
          - split; [right; left; rewrite (V (S (length l1)) 1 eq_refl ltac:(auto)); reflexivity|]. split; [reflexivity|discriminate].
          - split; [right; right; reflexivity|]. split; [reflexivity|]. intros t x E. inversion E; subst. reflexivity. }
        destruct G as (G1 & -> & G3). split; [exact H1|]. rewrite app_nil_r. split; [|exact G3].
        apply Forall_app. split; [exact F1|constructor; assumption].
      - exfalso. destruct H1 as [E|[E|[E|E]]]; subst; discriminate.
      - exfalso. destruct H1 as [E|[E|[E|E]]]; subst; discriminate.
      - exfalso. apply Forall_app in H2. destruct H2 as [_ F2]. inversion F2 as [|? ? F3 _]; subst. destruct F3 as [E|[E|E]]; subst; discriminate.
      - exfalso. apply Forall_app in H2. destruct H2 as [_ F2]. inversion F2 as [|? ? F3 _]; subst. destruct F3 as [E|[E|E]]; subst; discriminate.
      - exfalso. destruct H1 as [E|[E|[E|E]]]; subst; discriminate.
      - exfalso. apply Forall_app in H2. destruct H2 as [_ F2]. inversion F2 as [|? ? F3 _]; subst. destruct F3 as [E|[E|E]]; subst; discriminate. }
    destruct K as (K1 & K2 & K3). split; [exact K1|]. split; [exact K2|].
    intros x j v (t & E). destruct (nth_app_inv _ _ _ _ E) as [E'|[_ E']]; [apply (H3 x j v); exists t; exact E'|].
    injection E' as E1 E2. subst e. unfold wrote in E2. injection E2 as E2. assert (E3 := K3 t x eq_refl). congruence.
Qed.

Lemma air_weak_zero w v : wexec airBody 1 (fun x => x = 0 \/ x = 1) (fun _ => 0) airProg w -> view (wmain w) = HRet v -> v = 0.
Proof.
  intros H Hr. destruct (air_weak w H) as ([E|[E|[E|E]]] & _); rewrite E in Hr; cbn in Hr; congruence.
Qed.

(** A call of SortSlice with goroutines, and what its caller reads afterwards. *)
Example ex_allowed : exists w rs, allowed exCall 3 w rs /\ view (wmain w) = HRet tt /\ (exists p, In (EvGo p 1) (map fst (whist w))) /\
  (forall x, cCells exCall x -> In (x, latest exMem (whist w) x) rs).
Proof.
  destruct ex_trace as (tr & st & Ht & Hret & Hgo & _).
  destruct (traced_allowed exCall 3 tr st Ht) as (w & Hw & <- & E & _ & _).
  assert (Hr : view (wmain w) = HRet tt) by (rewrite E; exact Hret).
  exists w, (map (fun x => (x, latest (cInit exCall) (whist w) x)) (map (fun i => off exSlice + Z.of_nat i) (seq 0 (Z.to_nat (len exSlice))))).
  split; [apply allowed_read; assumption|]. split; [exact Hr|]. split; [exact Hgo|].
  intros x Hx. apply in_map_iff. exists x. split; [reflexivity|]. apply in_map_iff. exists (Z.to_nat (x - off exSlice)).
  change (off exSlice <= x < off exSlice + len exSlice) in Hx. split; [lia|]. apply in_seq. lia.
Qed.

Example ex_mix_allowed : exists w, allowed mixCall 3 w [] /\ view (wmain w) = HRet tt /\ (2 <= length (wthr w))%nat.
Proof.
  destruct ex_mix_run as (k & st & Hr & Hret & Hl). apply reach_traced in Hr. destruct Hr as (tr & _ & Ht).
  destruct (traced_allowed mixCall 3 tr st Ht) as (w & Hw & _ & E1 & E2 & _). exists w.
  split; [exact Hw|]. rewrite E1, E2. split; [exact Hret|exact Hl].
Qed.

Example ex_scrambled : exists tr st, scrambled exCall 3 tr st /\ returned st tt /\ exists p, In (EvGo p 1) tr.
Proof.
  destruct ex_trace as (tr & st & (mg0 & Hmg & Ht) & Hret & Hgo & _). exists tr, st. split; [|split; assumption].
  exists mg0. split; [exact Hmg|].
  assert (G : forall (s s' : Lang.st (cP exCall) Z unit), texec (cProcs exCall) 3 (cCells exCall) tr s s' -> texec (cProcs exCall) 3 (fun _ => False) tr s s');
    [|exact (G _ _ Ht)].
  clear. intros s s' H. induction H; [constructor|econstructor; eassumption|].
  eapply texec_env; [eassumption|]. destruct H0. constructor; [assumption|intros x []].
Qed.

(** A call of Sort with goroutines, and what its caller reads afterwards. *)
Example ex_lsw_allowed : exists w rs, allowed pCall 3 w rs /\ view (wmain w) = HRet tt /\ (1 <= length (wthr w))%nat /\
  (forall x, cCells pCall x -> In (x, latest pMem (whist w) x) rs).
Proof.
  destruct ex_lsw_run as (k & st & Hr & Hret & Hl & _). apply reach_traced in Hr. destruct Hr as (tr & _ & Ht).
  destruct (traced_allowed pCall 3 tr st Ht) as (w & Hw & _ & E1 & E2 & _).
  assert (Hv : view (wmain w) = HRet tt) by (rewrite E1; exact Hret).
  exists w, (map (fun x => (x, latest (cInit pCall) (whist w) x)) (map (fun i => Z.of_nat i) (seq 0 60))).
  split; [apply allowed_read; assumption|]. split; [exact Hv|]. split; [rewrite E2; exact Hl|].
  intros x Hx. apply in_map_iff. exists x. split; [reflexivity|]. apply in_map_iff. exists (Z.to_nat x).
  change (0 <= x < 0 + 60) in Hx. split; [lia|]. apply in_seq. lia.
Qed.
