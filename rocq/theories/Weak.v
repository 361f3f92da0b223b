(** * Elements under the Go memory model

    The machine of [Lang.v] has one memory and every read of an element returns what was last
    written there.  The Go memory model (go.dev/ref/mem) promises less: a read may return the
    value of any write that happens-before does not rule out.  Here is the machine with such reads, and
    the proof that for programs whose sequentially consistent executions are free of data races it
    does nothing new. *)

From Coq Require Import List ZArith Lia Bool.
From Verif Require Import Lang Trace HappensBefore.
Import ListNotations.
Open Scope Z_scope.

Section Weak.
Context {P T R : Type}.
Variable body : P -> cmd P T unit.
Variable M : Z.
Variable Rg : Z -> Prop.
Variable m0 : Z -> T.       (* the elements when the call is made *)

(** What happened so far: events in the order of execution, writes with their values. *)
Definition history := list (event * option T).

Definition writes (h : history) (x : Z) (j : nat) (v : T) : Prop :=
  exists t, nth_error h j = Some (EvWrite t x, Some v).

(** The values that the next event [e], if it is a read of cell [x], may return: that of any
    write which is not followed, in happens-before, by another write before the read; or
    the value from before the call if no write happens-before the read. *)
Definition visible (h : history) (e : event) (x : Z) (v : T) : Prop :=
  let tr := map fst h ++ [e] in
  let n := length h in
  (exists j, writes h x j v /\ forall j' v', writes h x j' v' -> hb tr j j' -> ~ hb tr j' n) \/
  (v = m0 x /\ forall j' v', writes h x j' v' -> ~ hb tr j' n).

Record wst := Wst {
  wmain : cmd P T R;
  wthr : list (cmd P T unit);
  wngor : Z;
  wchans : Z;
  whist : history
}.

Definition wrote (e : event) (w : Z -> T) : option T :=
  match e with EvWrite _ x => Some (w x) | _ => None end.

(** A step: some goroutine does what it would do in *some* memory [mm] and with some value [mg] of MaxGor;
    what it reads there is visible to it. *)
Inductive wstep : wst -> wst -> Prop :=
| wstep_in e m ts ng ch h mm mg s' :
    0 <= mg <= M ->
    (forall t x, e = EvRead t x -> Rg x -> visible h e x (mm x)) ->
    tstep body e (St m ts (Sh mm ng mg ch)) s' ->
    wstep (Wst m ts ng ch h)
      (Wst (main s') (thr s') (ngor (sh s')) (chans (sh s')) (h ++ [(e, wrote e (mem (sh s')))])).

Inductive wexec (c0 : cmd P T R) : wst -> Prop :=
| wexec_start : wexec c0 (Wst c0 [] 0 0 [])
| wexec_step w w' : wexec c0 w -> wstep w w' -> wexec c0 w'.

(** The last value written to a cell. *)
Definition latest (h : history) (x : Z) : T :=
  fold_left (fun v en => match en with
                         | (EvWrite _ y, Some u) => if y =? x then u else v
                         | _ => v
                         end) h (m0 x).

Lemma last_app h en x : latest (h ++ [en]) x =
  match en with (EvWrite _ y, Some u) => if y =? x then u else latest h x | _ => latest h x end.
Proof. unfold latest. rewrite fold_left_app. reflexivity. Qed.

Lemma last_case h x : (latest h x = m0 x /\ forall j v, ~ writes h x j v) \/
  exists j, writes h x j (latest h x) /\ forall j' v', writes h x j' v' -> (j' <= j)%nat.
Proof.
  induction h as [|[e o] h IH] using rev_ind.
  - left. split; [reflexivity|]. intros j v (t & H). destruct j; discriminate.
  - rewrite last_app.
    assert (Old : forall j v, writes (h ++ [(e, o)]) x j v -> writes h x j v \/
              (j = length h /\ exists t, e = EvWrite t x /\ o = Some v)).
    { intros j v (t & H). destruct (nth_app_inv _ _ _ _ H) as [H1|[H1 H2]].
      - left. exists t. exact H1.
      - right. inversion H2; subst. eauto. }
    assert (Keep : ~ (exists t v, e = EvWrite t x /\ o = Some v) ->
      (latest h x = m0 x /\ forall j v, ~ writes (h ++ [(e, o)]) x j v) \/
      exists j, writes (h ++ [(e, o)]) x j (latest h x) /\ forall j' v', writes (h ++ [(e, o)]) x j' v' -> (j' <= j)%nat).
    { intro N. destruct IH as [[E H]|(j & (t & Hj) & H)].
      - left. split; [exact E|]. intros j v Hw. destruct (Old _ _ Hw) as [Hw'|(_ & t & E1 & E2)]; [eapply H; eauto|].
        apply N; eauto.
      - right. exists j. split; [exists t; apply nth_app_old; exact Hj|]. intros j' v' Hw.
        destruct (Old _ _ Hw) as [Hw'|(_ & t' & E1 & E2)]; [eapply H; eauto|]. exfalso. apply N; eauto. }
    destruct e as [| |t y| | |]; try (apply Keep; intros (t' & v' & E & _); discriminate).
    destruct o as [u|]; [|apply Keep; intros (t' & v' & _ & E); discriminate].
    destruct (Z.eqb_spec y x) as [->|Ne].
    + right. exists (length h). split; [exists t; apply nth_app_new|].
      intros j' v' (t' & H'). apply nth_lt in H'. rewrite app_length in H'. simpl in H'. lia.
    + apply Keep. intros (t' & v' & E & _). inversion E. congruence.
Qed.

Lemma writes_touch h x j v e : writes h x j v ->
  exists t, nth_error (map fst h ++ [e]) j = Some (EvWrite t x) /\ (j < length h)%nat.
Proof.
  intros (t & H). exists t. split; [|eapply nth_lt; eauto]. apply nth_app_old. rewrite nth_error_map, H. reflexivity.
Qed.

(** Without races only the last value is visible. *)
Lemma visible_last h e t x v : e = EvRead t x -> ~ dataRace (map fst h ++ [e]) -> visible h e x v -> v = latest h x.
Proof.
  intros He Hno Hv.
  assert (Hn : nth_error (map fst h ++ [e]) (length h) = Some e).
  { rewrite <- (map_length fst h). apply nth_app_new. }
  assert (WR : forall j v', writes h x j v' -> ~ ~ hb (map fst h ++ [e]) j (length h)).
  { intros j v' Hw N. destruct (writes_touch h x j v' e Hw) as (t' & H1 & H2). apply Hno.
    exists j, (length h), (EvWrite t' x), e, x, true, false. split; [exact H2|]. split; [exact H1|]. split; [exact Hn|].
    split; [right; eauto|]. split; [left; eauto|]. split; [auto|exact N]. }
  assert (WW : forall j v' j' v'', writes h x j v' -> writes h x j' v'' -> (j < j')%nat -> ~ ~ hb (map fst h ++ [e]) j j').
  { intros j v' j' v'' Hw Hw' L N. destruct (writes_touch h x j v' e Hw) as (t1 & H1 & _).
    destruct (writes_touch h x j' v'' e Hw') as (t2 & H2 & _). apply Hno.
    exists j, j', (EvWrite t1 x), (EvWrite t2 x), x, true, true. split; [exact L|]. split; [exact H1|]. split; [exact H2|].
    split; [right; eauto|]. split; [right; eauto|]. split; [auto|exact N]. }
  destruct Hv as [(j & Hj & Hvis)|[-> Hnone]]; destruct (last_case h x) as [[E Hno']|(k & Hk & Hmax)].
  - exfalso. eapply Hno'; eauto.
  - assert (Hle := Hmax _ _ Hj). destruct (Nat.eq_dec j k) as [->|Ne].
    + destruct Hj as (t1 & H1), Hk as (t2 & H2). rewrite H1 in H2. inversion H2. reflexivity.
    + exfalso. apply (WW j v k (latest h x) Hj Hk ltac:(lia)). intro B1. apply (WR k _ Hk). intro B2. eapply Hvis; eauto.
  - symmetry; exact E.
  - exfalso. apply (WR k _ Hk). eapply Hnone; eauto.
Qed.

(** One step in two memories that agree where it reads. *)
Definition after (e : event) (w : Z -> T) (o : option T) : Z -> T :=
  match e, o with EvWrite _ x, Some v => upd w x v | _, _ => w end.

Lemma exec_local_swap {A} (c : cmd P T A) t n mm w ng mg ch c' s' fs :
  exec_local body c (Sh mm ng mg ch) = Some (c', s', fs) ->
  (forall x, label t n c = EvRead t x -> w x = mm x) ->
  maxg s' = mg /\
  exec_local body c (Sh w ng mg ch) =
    Some (c', Sh (after (label t n c) w (wrote (label t n c) (mem s'))) (ngor s') mg (chans s'), fs).
Proof.
  unfold exec_local, label, wrote, after. destruct (view c) eqn:E; intros H Hr; try discriminate; inversion H; subst; clear H;
    cbn [mem ngor maxg chans]; try (split; reflexivity).
  - split; [reflexivity|]. rewrite (Hr i eq_refl). reflexivity.
  - split; [reflexivity|]. unfold upd at 3. rewrite Z.eqb_refl. reflexivity.
Qed.

Lemma tstep_swap e m ts mm w ng mg ch s' :
  tstep body e (St m ts (Sh mm ng mg ch)) s' -> (forall t x, e = EvRead t x -> w x = mm x) ->
  maxg (sh s') = mg /\
  tstep body e (St (R := R) m ts (Sh w ng mg ch))
    (St (main s') (thr s') (Sh (after e w (wrote e (mem (sh s')))) (ngor (sh s')) mg (chans (sh s')))).
Proof.
  intros H Hr. remember (St m ts (Sh mm ng mg ch)) as s eqn:Es. destruct H; inversion Es; subst; clear Es;
    cbn [main thr sh mem ngor maxg chans wrote after].
  - destruct (exec_local_swap _ 0 (length ts) _ w _ _ _ _ _ _ H (fun x E => Hr _ _ E)) as [E1 E2].
    split; [exact E1|]. apply tstep_main. exact E2.
  - destruct (exec_local_swap _ (S (length l1)) (length (l1 ++ c :: l2)) _ w _ _ _ _ _ _ H (fun x E => Hr _ _ E)) as [E1 E2].
    split; [exact E1|]. apply tstep_thr. exact E2.
  - split; [reflexivity|]. eapply tstep_to_main; eassumption.
  - split; [reflexivity|]. eapply tstep_from_main; eassumption.
  - split; [reflexivity|]. eapply tstep_thr_thr1; eassumption.
  - split; [reflexivity|]. eapply tstep_thr_thr2; eassumption.
  - split; [reflexivity|]. eapply tstep_stale_main; eassumption.
  - split; [reflexivity|]. eapply tstep_stale_thr; eassumption.
Qed.

(** A sequentially consistent execution that does the same. *)
Definition matches (mg0 : Z) (c0 : cmd P T R) (w : wst) : Prop :=
  exists s, texec body M Rg (map fst (whist w)) (start c0 m0 mg0) s /\
    main s = wmain w /\ thr s = wthr w /\ ngor (sh s) = wngor w /\ chans (sh s) = wchans w /\
    forall x, Rg x -> mem (sh s) x = latest (whist w) x.

Theorem weak_strong mg0 c0 : 0 <= mg0 <= M -> (forall x, Rg x \/ ~ Rg x) ->
  (forall tr s, texec body M Rg tr (start c0 m0 mg0) s -> ~ dataRace tr) ->
  forall w, wexec c0 w -> matches mg0 c0 w.
Proof.
  intros Hmg Hdec Hrace w H. induction H as [|w w' H IH Hs].
  - exists (start c0 m0 mg0). split; [constructor|]. repeat split.
  - destruct IH as (s & Ht & E1 & E2 & E3 & E4 & E5). destruct Hs as [e m ts ng ch h mm mg s' Hmg' Hvis Hst].
    cbn [wmain wthr wngor wchans whist] in *. destruct s as [m1 ts1 [w0 ng1 mg1 ch1]]. cbn [main thr sh ngor chans mem] in *.
    subst m1 ts1 ng1 ch1.
    (* the memory in which the step is done: the elements, and whatever is read elsewhere *)
    assert (Hw : exists w1, (forall x, Rg x -> w1 x = w0 x) /\ forall t x, e = EvRead t x -> ~ Rg x -> w1 x = mm x).
    { destruct e as [|t x| | | |]; try (exists w0; split; [auto|intros t' x' E; discriminate]).
      destruct (Hdec x) as [Hx|Hx].
      - exists w0. split; [auto|]. intros t' x' E. inversion E; subst. contradiction.
      - exists (upd w0 x (mm x)). unfold upd. split.
        + intros y Hy. destruct (Z.eqb_spec y x); [subst; contradiction|reflexivity].
        + intros t' x' E _. inversion E; subst. rewrite Z.eqb_refl. reflexivity. }
    destruct Hw as (w1 & W1 & W2).
    assert (Henv : texec body M Rg (map fst h) (start c0 m0 mg0) (St m ts (Sh w1 ng mg ch))).
    { eapply texec_env; [exact Ht|]. apply (env_step M Rg m ts (Sh w0 ng mg1 ch) w1 mg); assumption. }
    assert (Hsame : forall t x, e = EvRead t x -> w1 x = mm x).
    { intros t x E. destruct (Hdec x) as [Hx|Hx]; [|eapply W2; eauto].
      rewrite (W1 x Hx), (E5 x Hx). symmetry. eapply visible_last; [exact E| |exact (Hvis t x E Hx)].
      (* the read can be done in the present memory, so it is not racy *)
      assert (G : exists s1, tstep body e (St m ts (Sh w1 ng mg ch)) s1).
      { clear - Hst E. remember (St m ts (Sh mm ng mg ch)) as s eqn:Es. destruct Hst; inversion Es; subst; clear Es; try discriminate.
        - unfold label in E. unfold exec_local in H. destruct (view m) eqn:Ev; try discriminate.
          eexists. eapply tstep_main. unfold exec_local. rewrite Ev. reflexivity.
        - unfold label in E. unfold exec_local in H. destruct (view c) eqn:Ev; try discriminate.
          eexists. eapply tstep_thr. unfold exec_local. rewrite Ev. reflexivity. }
      destruct G as (s1 & G). eapply Hrace. eapply texec_prog; [exact Henv|exact G]. }
    destruct (tstep_swap e m ts mm w1 ng mg ch s' Hst Hsame) as [_ Hst'].
    eexists. cbn [wmain wthr wngor wchans whist]. rewrite map_app. split; [eapply texec_prog; [exact Henv|exact Hst']|].
    cbn [main thr sh ngor chans mem]. do 4 (split; [reflexivity|]).
    intros x Hx. rewrite last_app. unfold wrote, after. destruct e as [| |t y| | |]; rewrite ?(W1 x Hx), ?(E5 x Hx); try reflexivity.
    unfold upd. rewrite (Z.eqb_sym x y). destruct (Z.eqb y x); [reflexivity|]. rewrite (W1 x Hx). apply E5. exact Hx.
Qed.

(** Conversely this machine can do whatever the one of [Lang.v] can: the last value is always visible. *)
Lemma hb_order tr i j : hb tr i j -> (i < j)%nat.
Proof. induction 1; lia. Qed.

Lemma latest_visible h e x : visible h e x (latest h x).
Proof.
  destruct (last_case h x) as [[E H]|(j & Hj & Hmax)].
  - right. split; [exact E|]. intros j v Hw. exfalso. eapply H; eauto.
  - left. exists j. split; [exact Hj|]. intros j' v' Hw Hb _. apply hb_order in Hb. specialize (Hmax _ _ Hw). lia.
Qed.

Theorem strong_weak mg0 c0 : 0 <= mg0 <= M ->
  forall tr s, texec body M Rg tr (start c0 m0 mg0) s ->
  exists w, wexec c0 w /\ map fst (whist w) = tr /\ wmain w = main s /\ wthr w = thr s /\
    forall x, Rg x -> latest (whist w) x = mem (sh s) x.
Proof.
  intros Hmg tr s H.
  enough (G : 0 <= maxg (sh s) <= M /\ exists w, wexec c0 w /\ map fst (whist w) = tr /\ wmain w = main s /\ wthr w = thr s /\
    wngor w = ngor (sh s) /\ wchans w = chans (sh s) /\ forall x, Rg x -> latest (whist w) x = mem (sh s) x).
  { destruct G as (_ & w & G1 & G2 & G3 & G4 & _ & _ & G5). exists w. auto. }
  remember (start c0 m0 mg0) as s0 eqn:E0. induction H as [s|tr e s s1 s2 H IH Hs|tr s s1 s2 H IH Hs]; subst s.
  - split; [exact Hmg|]. exists (Wst c0 [] 0 0 []). split; [constructor|]. repeat split.
  - destruct (IH eq_refl) as (Hm & w & G1 & G2 & G3 & G4 & G5 & G6 & G7). destruct s1 as [m ts [w0 ng mg ch]].
    destruct w as [wm wt wn wc h]. cbn [main thr sh mem ngor maxg chans wmain wthr wngor wchans whist] in *. subst wm wt wn wc.
    destruct (tstep_swap e m ts w0 w0 ng mg ch s2 Hs (fun _ _ _ => eq_refl)) as [Emg _].
    split; [rewrite Emg; exact Hm|]. eexists. split.
    { eapply wexec_step; [exact G1|]. apply (wstep_in e m ts ng ch h w0 mg s2 Hm); [|exact Hs].
      intros t x _ Hx. rewrite <- (G7 x Hx). apply latest_visible. }
    cbn [wmain wthr wngor wchans whist]. rewrite map_app, G2. do 5 (split; [reflexivity|]).
    intros x Hx. rewrite last_app. unfold wrote.
    assert (Frame : forall y, (forall t, e <> EvWrite t y) -> mem (sh s2) y = w0 y).
    { clear - Hs. remember (St m ts (Sh w0 ng mg ch)) as s eqn:Es. intros y Hy.
      destruct Hs; inversion Es; subst; clear Es; cbn [sh mem]; try reflexivity.
      - unfold exec_local, label in *. destruct (view m) eqn:Ev; try discriminate; inversion H; subst; cbn [mem]; try reflexivity.
        unfold upd. destruct (Z.eqb_spec y i); [subst; exfalso; eapply Hy; reflexivity|reflexivity].
      - unfold exec_local, label in *. destruct (view c) eqn:Ev; try discriminate; inversion H; subst; cbn [mem]; try reflexivity.
        unfold upd. destruct (Z.eqb_spec y i); [subst; exfalso; eapply Hy; reflexivity|reflexivity]. }
    destruct e as [| |t y| | |]; try (rewrite (G7 x Hx), Frame; [reflexivity|discriminate]).
    destruct (Z.eqb_spec y x) as [->|Ne]; [reflexivity|]. rewrite (G7 x Hx), Frame; [reflexivity|]. intros t' E; inversion E; congruence.
  - destruct (IH eq_refl) as (Hm & w & G1 & G2 & G3 & G4 & G5 & G6 & G7). destruct Hs as [m ts s0 mem' mg' A B].
    cbn [main thr sh mem ngor maxg chans] in *. split; [exact A|]. exists w. repeat (split; [assumption|]).
    intros x Hx. rewrite (B x Hx). auto.
Qed.

End Weak.
