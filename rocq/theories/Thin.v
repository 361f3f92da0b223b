(** * Elements under the Go memory model, with reads that see writes yet to come

    In [Weak.v] a read of an element returns the value of a write that was done earlier in the
    execution.  The rules of the Go memory model about the values of reads (go.dev/ref/mem:
    "the write is visible to the read", and for racing accesses "a value actually written to that
    location (perhaps by a concurrently executing goroutine) and not yet overwritten") do not say
    so: by them alone a read may return the value of any write of the whole execution that
    does not happen after it, even of one that was done only because of that read (values "out of
    thin air").  Here reads deliver anything at first, and afterwards the execution as a whole has to
    explain them.  For programs free of data races *whatever their reads deliver* nothing new
    is possible. *)

From Coq Require Import List ZArith Lia Bool.
From Verif Require Import Lang Trace HappensBefore Weak.
Import ListNotations.
Open Scope Z_scope.

Section Thin.
Context {P T R : Type}.
Variable body : P -> cmd P T unit.
Variable M : Z.
Variable Rg : Z -> Prop.
Variable m0 : Z -> T.       (* the elements when the call is made *)

Notation wst := (wst (P := P) (T := T) (R := R)).
Notation history := (history (T := T)).

(** What is noted about an event: the value read or written. *)
Definition noted (e : event) (before after : Z -> T) : option T :=
  match e with EvRead _ x => Some (before x) | EvWrite _ x => Some (after x) | _ => None end.

(** A step: some goroutine does what it would do in *some* memory [mm] and with some value [mg] of
    MaxGor.  So a read may deliver anything. *)
Inductive guess : wst -> wst -> Prop :=
| guess_in e m ts ng ch h mm mg s' :
    0 <= mg <= M ->
    tstep body e (St m ts (Sh mm ng mg ch)) s' ->
    guess (Wst m ts ng ch h)
      (Wst (main s') (thr s') (ngor (sh s')) (chans (sh s')) (h ++ [(e, noted e mm (mem (sh s')))])).

Inductive guesses (c0 : cmd P T R) : wst -> Prop :=
| guesses_start : guesses c0 (Wst c0 [] 0 0 [])
| guesses_step w w' : guesses c0 w -> guess w w' -> guesses c0 w'.

(** What the memory model says about value [v] of a read of [x], event [n] of execution [h]:
    it was written by some write [j], before or after it in the order of execution, that does not
    happen after the read and is not overwritten before it; or it is the value from before the call
    and nothing written to [x] happens before the read. *)
Definition explainedAt (h : history) (n : nat) (x : Z) (v : T) : Prop :=
  let tr := map fst h in
  (exists j, writes h x j v /\ ~ hb tr n j /\ forall j' v', writes h x j' v' -> hb tr j j' -> ~ hb tr j' n) \/
  (v = m0 x /\ forall j' v', writes h x j' v' -> ~ hb tr j' n).

Definition explained (h : history) : Prop :=
  forall n t x v, nth_error h n = Some (EvRead t x, Some v) -> Rg x -> explainedAt h n x v.

(** Reads that return the last value written. *)
Definition honest (h : history) : Prop :=
  forall n t x v, nth_error h n = Some (EvRead t x, Some v) -> Rg x -> v = latest m0 (firstn n h) x.

Lemma nth_firstn {X} n (l : list X) j : (j < n)%nat -> nth_error (firstn n l) j = nth_error l j.
Proof.
  revert l j. induction n as [|n IH]; intros l j Hj; [lia|]. destruct l as [|y l]; [destruct j; reflexivity|].
  destruct j as [|j]; [reflexivity|]. cbn. apply IH. lia.
Qed.

Lemma writes_firstn (h : history) n x j v : writes (firstn n h) x j v <-> writes h x j v /\ (j < n)%nat.
Proof.
  split.
  - intros (t & H). assert (L := nth_lt _ _ _ H). rewrite firstn_length in L.
    rewrite nth_firstn in H by lia. split; [exists t; exact H|lia].
  - intros ((t & H) & L). exists t. rewrite nth_firstn by exact L. exact H.
Qed.

Lemma writes_at (h : history) x j v : writes h x j v -> exists t, nth_error (map fst h) j = Some (EvWrite t x).
Proof. intros (t & H). exists t. rewrite nth_error_map, H. reflexivity. Qed.

(** Whatever explains a read: if it is ordered with all writes of its cell, and these among each
    other, then it returned the last value written. *)
Lemma explained_ordered h n t x v :
  (forall j v', writes h x j v' -> (j < n)%nat -> ~ ~ hb (map fst h) j n) ->
  (forall j v', writes h x j v' -> (n < j)%nat -> ~ ~ hb (map fst h) n j) ->
  (forall j v' j' v'', writes h x j v' -> writes h x j' v'' -> (j < j')%nat -> ~ ~ hb (map fst h) j j') ->
  nth_error h n = Some (EvRead t x, Some v) -> explainedAt h n x v -> v = latest m0 (firstn n h) x.
Proof.
  intros WR RW WW Hn Hv.
  destruct (last_case m0 (firstn n h) x) as [[E Hnone]|(k & Hk & Hmax)].
  - rewrite E. destruct Hv as [(j & Hj & Hnb & _)|[-> _]]; [exfalso|reflexivity].
    destruct (Nat.lt_trichotomy j n) as [L|[->|L]].
    + apply (Hnone j v). apply writes_firstn. split; assumption.
    + destruct Hj as (t' & Hj). rewrite Hn in Hj. discriminate.
    + exact (RW j v Hj L Hnb).
  - apply writes_firstn in Hk. destruct Hk as [Hk Lk].
    destruct Hv as [(j & Hj & Hnb & Hvis)|[-> Hvis]].
    + destruct (Nat.lt_trichotomy j n) as [L|[->|L]].
      * assert (Hle : (j <= k)%nat) by (apply (Hmax j v); apply writes_firstn; split; assumption).
        destruct (Nat.eq_dec j k) as [->|Ne].
        -- destruct Hj as (t1 & H1), Hk as (t2 & H2). rewrite H1 in H2. inversion H2. reflexivity.
        -- exfalso. apply (WW j v k _ Hj Hk ltac:(lia)). intro B1. apply (WR k _ Hk Lk). intro B2.
           exact (Hvis k _ Hk B1 B2).
      * exfalso. destruct Hj as (t' & Hj). rewrite Hn in Hj. discriminate.
      * exfalso. exact (RW j v Hj L Hnb).
    + exfalso. exact (WR k _ Hk Lk (Hvis k _ Hk)).
Qed.

(** So it is without races. *)
Lemma explained_last h n t x v : ~ dataRace (map fst h) -> nth_error h n = Some (EvRead t x, Some v) ->
  explainedAt h n x v -> v = latest m0 (firstn n h) x.
Proof.
  intros Hno Hn Hv. assert (Hn' : nth_error (map fst h) n = Some (EvRead t x)) by (rewrite nth_error_map, Hn; reflexivity).
  apply (explained_ordered h n t x v); [| | |exact Hn|exact Hv].
  - intros j v' Hw L N. destruct (writes_at h x j v' Hw) as (t' & H1). apply Hno.
    exists j, n, (EvWrite t' x), (EvRead t x), x, true, false. split; [exact L|]. split; [exact H1|]. split; [exact Hn'|].
    split; [right; eauto|]. split; [left; eauto|]. split; [auto|exact N].
  - intros j v' Hw L N. destruct (writes_at h x j v' Hw) as (t' & H1). apply Hno.
    exists n, j, (EvRead t x), (EvWrite t' x), x, false, true. split; [exact L|]. split; [exact Hn'|]. split; [exact H1|].
    split; [left; eauto|]. split; [right; eauto|]. split; [auto|exact N].
  - intros j v' j' v'' Hw Hw' L N. destruct (writes_at h x j v' Hw) as (t1 & H1).
    destruct (writes_at h x j' v'' Hw') as (t2 & H2). apply Hno.
    exists j, j', (EvWrite t1 x), (EvWrite t2 x), x, true, true. split; [exact L|]. split; [exact H1|]. split; [exact H2|].
    split; [right; eauto|]. split; [right; eauto|]. split; [auto|exact N].
Qed.

Lemma explained_honest h : ~ dataRace (map fst h) -> explained h -> honest h.
Proof. intros Hno He n t x v Hn Hx. eapply explained_last; eauto. Qed.

Lemma firstn_all_app {X} n (l l' : list X) : (n <= length l)%nat -> firstn n (l ++ l') = firstn n l.
Proof. intro H. rewrite firstn_app. replace (n - length l)%nat with O by lia. apply app_nil_r. Qed.

Lemma honest_prefix h h' : honest (h ++ h') -> honest h.
Proof.
  intros H n t x v Hn Hx. assert (L := nth_lt _ _ _ Hn).
  rewrite (H n t x v (nth_in1 _ _ _ _ Hn) Hx), firstn_all_app by lia. reflexivity.
Qed.

(** An execution on a memory that others keep changing, in which the same happens. *)
Lemma guesses_exec mg0 c0 w : 0 <= mg0 <= M -> guesses c0 w ->
  exists s, texec body M (fun _ => False) (map fst (whist w)) (start c0 m0 mg0) s /\
    main s = wmain w /\ thr s = wthr w /\ ngor (sh s) = wngor w /\ chans (sh s) = wchans w.
Proof.
  intros Hmg H. induction H as [|w w' H IH Hs].
  - exists (start c0 m0 mg0). split; [constructor|]. repeat split.
  - destruct IH as (s & Ht & E1 & E2 & E3 & E4). destruct Hs as [e m ts ng ch h mm mg s' Hmg' Hst].
    cbn [wmain wthr wngor wchans whist] in *. destruct s as [m1 ts1 [w0 ng1 mg1 ch1]]. cbn [main thr sh ngor chans mem] in *.
    subst m1 ts1 ng1 ch1. exists s'. rewrite map_app. split; [|auto].
    eapply texec_prog; [|exact Hst]. eapply texec_env; [exact Ht|].
    apply (env_step M (fun _ => False) m ts (Sh w0 ng mg1 ch) mm mg); [exact Hmg'|intros i []].
Qed.

Lemma honest_strong mg0 c0 w : 0 <= mg0 <= M -> (forall x, Rg x \/ ~ Rg x) ->
  guesses c0 w -> honest (whist w) -> matches body M Rg m0 mg0 c0 w.
Proof.
  intros Hmg Hdec H. induction H as [|w w' H IH Hs]; intro Ho.
  - exists (start c0 m0 mg0). split; [constructor|]. repeat split.
  - destruct Hs as [e m ts ng ch h mm mg s' Hmg' Hst].
    cbn [wmain wthr wngor wchans whist] in *. destruct (IH (honest_prefix _ _ Ho)) as (s & Ht & E1 & E2 & E3 & E4 & E5).
    destruct s as [m1 ts1 [w0 ng1 mg1 ch1]]. cbn [main thr sh ngor chans mem] in *. subst m1 ts1 ng1 ch1.
    assert (Hw : exists w1, (forall x, Rg x -> w1 x = w0 x) /\ forall t x, e = EvRead t x -> ~ Rg x -> w1 x = mm x).
    { destruct e as [|t x| | | |]; try (exists w0; split; [auto|intros t' x' E; discriminate]).
      destruct (Hdec x) as [Hx|Hx].
      - exists w0. split; [auto|]. intros t' x' E. inversion E; subst. contradiction.
      - exists (upd w0 x (mm x)). unfold upd. split.
        + intros y Hy. destruct (Z.eqb_spec y x); [subst; contradiction|reflexivity].
        + intros t' x' E _. inversion E; subst. rewrite Z.eqb_refl. reflexivity. }
    destruct Hw as (w1 & W1 & W2).
    assert (Henv : texec body M Rg (map fst h) (start c0 m0 mg0) (St m ts (Sh w1 ng mg ch))).
    { eapply texec_env; [exact Ht|]. apply (env_step M Rg m ts (Sh w0 ng mg1 ch) w1 mg); assumption. }
    assert (Hsame : forall t x, e = EvRead t x -> w1 x = mm x).
    { intros t x E. destruct (Hdec x) as [Hx|Hx]; [|eapply W2; eauto].
      rewrite (W1 x Hx), (E5 x Hx). symmetry. subst e. cbn [noted] in Ho.
      rewrite (Ho (length h) t x (mm x) (nth_app_new _ _) Hx), firstn_all_app, firstn_all by lia. reflexivity. }
    destruct (tstep_swap body e m ts mm w1 ng mg ch s' Hst Hsame) as [_ Hst'].
    eexists. cbn [wmain wthr wngor wchans whist]. rewrite map_app. split; [eapply texec_prog; [exact Henv|exact Hst']|].
    cbn [main thr sh ngor chans mem]. do 4 (split; [reflexivity|]).
    intros x Hx. rewrite last_app. unfold noted, wrote, after. destruct e as [| |t y| | |]; rewrite ?(W1 x Hx), ?(E5 x Hx); try reflexivity.
    unfold upd. rewrite (Z.eqb_sym x y). destruct (Z.eqb y x); [reflexivity|]. rewrite (W1 x Hx). apply E5. exact Hx.
Qed.

(** Free of data races whatever the reads deliver. *)
Definition raceless (mg0 : Z) (c0 : cmd P T R) : Prop :=
  forall tr s, texec body M (fun _ => False) tr (start c0 m0 mg0) s -> ~ dataRace tr.

Lemma guesses_norace mg0 c0 w : 0 <= mg0 <= M -> raceless mg0 c0 -> guesses c0 w -> ~ dataRace (map fst (whist w)).
Proof. intros Hmg Hr Hw. destruct (guesses_exec mg0 c0 w Hmg Hw) as (s & Ht & _). eapply Hr; exact Ht. Qed.

Theorem thin_strong mg0 c0 : 0 <= mg0 <= M -> (forall x, Rg x \/ ~ Rg x) -> raceless mg0 c0 ->
  forall w, guesses c0 w -> explained (whist w) -> matches body M Rg m0 mg0 c0 w.
Proof.
  intros Hmg Hdec Hr w Hw He. apply honest_strong; auto. apply explained_honest; [|exact He].
  eapply guesses_norace; eauto.
Qed.

(** ** Executions that go on forever: each read is explained at some time *)

Definition endless (c0 : cmd P T R) (run : nat -> wst) : Prop :=
  run O = Wst c0 [] 0 0 [] /\ (forall i, guess (run i) (run (S i))) /\
  forall i n t x v, nth_error (whist (run i)) n = Some (EvRead t x, Some v) -> Rg x ->
    exists k, (i <= k)%nat /\ explainedAt (whist (run k)) n x v.

Lemma guess_hist w w' : guess w w' -> exists en, whist w' = whist w ++ [en].
Proof. intros [e m ts ng ch h mm mg s' _ _]. eexists. reflexivity. Qed.

Lemma endless_guesses c0 run i : endless c0 run -> guesses c0 (run i).
Proof. intros (H0 & H & _). induction i as [|i IH]; [rewrite H0; constructor|eapply guesses_step; eauto]. Qed.

Lemma endless_prefix c0 run i k : endless c0 run -> (i <= k)%nat -> exists l, whist (run k) = whist (run i) ++ l.
Proof.
  intros (_ & H & _) Hik. induction Hik as [|k _ IH]; [exists []; symmetry; apply app_nil_r|].
  destruct IH as (l & E). destruct (guess_hist _ _ (H k)) as (en & Ek).
  rewrite Ek, E. eexists. symmetry. apply app_assoc.
Qed.

Lemma endless_length c0 run i : endless c0 run -> length (whist (run i)) = i.
Proof.
  intros (H0 & H & _). induction i as [|i IH]; [rewrite H0; reflexivity|].
  destruct (guess_hist _ _ (H i)) as (en & Ek). rewrite Ek, app_length. cbn [length]. lia.
Qed.

Theorem endless_strong mg0 c0 run : 0 <= mg0 <= M -> (forall x, Rg x \/ ~ Rg x) ->
  (forall k, ~ dataRace (map fst (whist (run k)))) -> endless c0 run -> forall i, matches body M Rg m0 mg0 c0 (run i).
Proof.
  intros Hmg Hdec Hr HE i. apply honest_strong; auto; [eapply endless_guesses; eauto|].
  intros n t x v Hn Hx. assert (HE' := HE). destruct HE' as (_ & _ & Hex). destruct (Hex i n t x v Hn Hx) as (k & Hik & Hk).
  destruct (endless_prefix c0 run i k HE Hik) as (l & El). assert (L := nth_lt _ _ _ Hn).
  assert (Hn' : nth_error (whist (run k)) n = Some (EvRead t x, Some v)) by (rewrite El; apply nth_in1; exact Hn).
  rewrite (explained_last _ n t x v (Hr k) Hn' Hk), El.
  rewrite firstn_all_app by lia. reflexivity.
Qed.

(** ** Going on with the last values keeps an execution explained *)

Lemma hb_back tr e i j : hb (tr ++ [e]) i j -> (j < length tr)%nat -> hb tr i j.
Proof.
  assert (N : forall k (e' : event), (k < length tr)%nat -> nth_error (tr ++ [e]) k = Some e' -> nth_error tr k = Some e')
    by (intros k e' L E; rewrite nth_error_app1 in E by exact L; exact E).
  intro H. induction H as [i j ei ej t Hij H1 H2 H3 H4|i j t u ej Hij H1 H2 H3|i j t u Hij H1 H2|i j k H1 IH1 H2 IH2]; intro L.
  - exact (hb_program tr i j ei ej t Hij (N i _ ltac:(lia) H1) (N j _ L H2) H3 H4).
  - exact (hb_go tr i j t u ej Hij (N i _ ltac:(lia) H1) (N j _ L H2) H3).
  - exact (hb_atomic tr i j t u Hij (N i _ ltac:(lia) H1) (N j _ L H2)).
  - assert (Lj := hb_order _ _ _ H2). eapply hb_trans; [apply IH1; lia|apply IH2; exact L].
Qed.

Lemma writes_app (h : history) en x j v : writes h x j v -> writes (h ++ [en]) x j v.
Proof. intros (t & H). exists t. apply nth_app_old. exact H. Qed.

Lemma writes_back (h : history) en x j v : writes (h ++ [en]) x j v -> (j < length h)%nat -> writes h x j v.
Proof. intros (t & H) L. exists t. rewrite nth_error_app1 in H by exact L. exact H. Qed.

Lemma explained_app h en : explained h ->
  (forall t x v, en = (EvRead t x, Some v) -> Rg x -> v = latest m0 h x) -> explained (h ++ [en]).
Proof.
  intros He Hen n t x v Hn Hx.
  assert (Lt : forall a b, hb (map fst (h ++ [en])) a b -> (b <= length h)%nat -> (a < length h)%nat) by
    (intros a b Hab Hb; apply hb_order in Hab; lia).
  destruct (nth_app_inv _ _ _ _ Hn) as [Hn'|[-> E]].
  - assert (L := nth_lt _ _ _ Hn'). unfold explainedAt. rewrite map_app. cbn [map].
    assert (Lm : length (map fst h) = length h) by apply map_length.
    destruct (He n t x v Hn' Hx) as [(j & Hj & Hnb & Hvis)|[-> Hvis]].
    + left. exists j. assert (Lj : (j < length h)%nat) by (destruct Hj as (t' & Hj); eapply nth_lt; exact Hj).
      split; [apply writes_app; exact Hj|]. split.
      * intro B. apply Hnb. eapply hb_back; [exact B|lia].
      * intros j' v' Hw B1 B2. assert (L' := hb_order _ _ _ B2).
        apply (Hvis j' v'); [eapply writes_back; [exact Hw|lia]|eapply hb_back; [exact B1|lia]|eapply hb_back; [exact B2|lia]].
    + right. split; [reflexivity|]. intros j' v' Hw B. assert (L' := hb_order _ _ _ B).
      apply (Hvis j' v'); [eapply writes_back; [exact Hw|lia]|eapply hb_back; [exact B|lia]].
  - specialize (Hen t x v (eq_sym E) Hx). subst v.
    destruct (last_case m0 h x) as [[El H]|(j & Hj & Hmax)].
    + right. split; [exact El|]. intros j' v' Hw B. apply hb_order in B. apply (H j' v'). eapply writes_back; [exact Hw|exact B].
    + left. exists j. assert (Lj : (j < length h)%nat) by (destruct Hj as (t' & Hj); eapply nth_lt; exact Hj).
      split; [apply writes_app; exact Hj|]. split; [intro B; apply hb_order in B; lia|].
      intros j' v' Hw B1 B2. apply hb_order in B1, B2. assert (j' <= j)%nat; [|lia].
      apply (Hmax j' v'). eapply writes_back; [exact Hw|exact B2].
Qed.

Lemma honest_explained h : honest h -> explained h.
Proof.
  induction h as [|en h IH] using rev_ind; intro Ho; [intros n t x v Hn; destruct n; discriminate|].
  apply explained_app; [apply IH; eapply honest_prefix; exact Ho|].
  intros t x v -> Hx. rewrite (Ho (length h) t x v (nth_app_new _ _) Hx).
  rewrite firstn_all_app, firstn_all by lia. reflexivity.
Qed.

(** Conversely whatever the machine of [Lang.v] can do is explained. *)
Theorem strong_guess mg0 c0 : 0 <= mg0 <= M ->
  forall tr s, texec body M Rg tr (start c0 m0 mg0) s ->
  exists w, guesses c0 w /\ honest (whist w) /\ map fst (whist w) = tr /\ wmain w = main s /\ wthr w = thr s /\
    wngor w = ngor (sh s) /\ wchans w = chans (sh s) /\ forall x, Rg x -> latest m0 (whist w) x = mem (sh s) x.
Proof.
  intros Hmg tr s H.
  enough (G : 0 <= maxg (sh s) <= M /\ exists w, guesses c0 w /\ honest (whist w) /\ map fst (whist w) = tr /\ wmain w = main s /\ wthr w = thr s /\
    wngor w = ngor (sh s) /\ wchans w = chans (sh s) /\ forall x, Rg x -> latest m0 (whist w) x = mem (sh s) x) by apply G.
  remember (start c0 m0 mg0) as s0 eqn:E0. induction H as [s|tr e s s1 s2 H IH Hs|tr s s1 s2 H IH Hs]; subst s.
  - split; [exact Hmg|]. exists (Wst c0 [] 0 0 []). split; [constructor|].
    split; [intros n t x v Hn; destruct n; discriminate|]. repeat split.
  - destruct (IH eq_refl) as (Hm & w & G1 & G0 & G2 & G3 & G4 & G5 & G6 & G7). destruct s1 as [m ts [w0 ng mg ch]].
    destruct w as [wm wt wn wc h]. cbn [main thr sh mem ngor maxg chans wmain wthr wngor wchans whist] in *. subst wm wt wn wc.
    destruct (tstep_swap body e m ts w0 w0 ng mg ch s2 Hs (fun _ _ _ => eq_refl)) as [Emg _].
    split; [rewrite Emg; exact Hm|]. eexists. split.
    { eapply guesses_step; [exact G1|]. apply (guess_in e m ts ng ch h w0 mg s2 Hm Hs). }
    cbn [wmain wthr wngor wchans whist]. split.
    { intros n t x v Hn Hx. destruct (nth_app_inv _ _ _ _ Hn) as [Hn'|[-> E]].
      - assert (L := nth_lt _ _ _ Hn'). rewrite (G0 n t x v Hn' Hx), firstn_all_app by lia. reflexivity.
      - rewrite firstn_all_app, firstn_all by lia. rewrite (G7 x Hx).
        injection E as Ee En. rewrite <- Ee in En. cbn [noted] in En. injection En as En. exact En. }
    rewrite map_app, G2. do 5 (split; [reflexivity|]).
    intros x Hx. rewrite last_app. unfold wrote.
    assert (Frame : forall y, (forall t, e <> EvWrite t y) -> mem (sh s2) y = w0 y).
    { clear - Hs. remember (St m ts (Sh w0 ng mg ch)) as s eqn:Es. intros y Hy.
      destruct Hs; inversion Es; subst; clear Es; cbn [sh mem]; try reflexivity.
      - unfold exec_local, label in *. destruct (view m) eqn:Ev; try discriminate; inversion H; subst; cbn [mem]; try reflexivity.
        unfold upd. destruct (Z.eqb_spec y i); [subst; exfalso; eapply Hy; reflexivity|reflexivity].
      - unfold exec_local, label in *. destruct (view c) eqn:Ev; try discriminate; inversion H; subst; cbn [mem]; try reflexivity.
        unfold upd. destruct (Z.eqb_spec y i); [subst; exfalso; eapply Hy; reflexivity|reflexivity]. }
    destruct e as [| |t y| | |]; cbn [noted]; try (rewrite (G7 x Hx), Frame; [reflexivity|discriminate]).
    destruct (Z.eqb_spec y x) as [->|Ne]; [reflexivity|]. rewrite (G7 x Hx), Frame; [reflexivity|]. intros t' E; inversion E; congruence.
  - destruct (IH eq_refl) as (Hm & w & G1 & G0 & G2 & G3 & G4 & G5 & G6 & G7). destruct Hs as [m ts s0 mem' mg' A B].
    cbn [main thr sh mem ngor maxg chans] in *. split; [exact A|]. exists w. repeat (split; [assumption|]).
    intros x Hx. rewrite (B x Hx). auto.
Qed.

End Thin.
