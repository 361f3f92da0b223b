(** * A call that never ends: NaNs with NaNignore *)

From Coq Require Import List ZArith Lia Bool.
From Verif Require Import Lang SeqLogic Base SeqOps Scalar ScalarFacts Typed Kinds Spec KindsFacts TypedShort TypedApi Calls.
Import ListNotations.
Open Scope Z_scope.

(** ** Runs of a lone goroutine

    [runs n c Q]: with every cell of [Rg] holding a [good] value, each of the next [n] steps
    of [c] is possible, stays in [Rg] and keeps its values good; if [c] returns [a] before
    that, [Q] holds of [a] and the number of steps left. *)

Section Run.
Context {Wd : word}.
Context {P T : Type}.
Variable body : P -> cmd P T unit.
Variable M : Z.
Variable Rg : Z -> Prop.
Variable good : T -> Prop.

Fixpoint runs {A} (n : nat) (c : cmd P T A) (Q : nat -> A -> Prop) {struct n} : Prop :=
  match n with
  | O => True
  | S n' =>
    match view c with
    | HRet a => Q n a
    | HTau c' => runs n' c' Q
    | HRead i k => Rg i /\ forall v, good v -> runs n' (k v) Q
    | HWrite i v k => Rg i /\ good v /\ runs n' k Q
    | HCall p k => runs n' (k (body p)) Q
    | HLoadMax k => forall mg, 0 <= mg <= M -> runs n' (k mg) Q
    | _ => False
    end
  end.

Lemma run_mono {A} n : forall (c : cmd P T A) (Q Q' : nat -> A -> Prop),
  runs n c Q -> (forall m a, (1 <= m <= n)%nat -> Q m a -> Q' m a) -> runs n c Q'.
Proof.
  induction n as [|n IH]; intros c Q Q' H HQ; [exact I|]. cbn [runs] in *.
  assert (HQ' : forall m a, (1 <= m <= n)%nat -> Q m a -> Q' m a) by (intros; apply HQ; [lia|assumption]).
  destruct (view c); try contradiction.
  - apply HQ; [lia|exact H].
  - eapply IH; eauto.
  - destruct H as [H1 H2]. split; [exact H1|]. intros. eapply IH; eauto.
  - destruct H as (H1 & H2 & H3). split; [exact H1|]. split; [exact H2|]. eapply IH; eauto.
  - eapply IH; eauto.
  - intros. eapply IH; eauto.
Qed.

Lemma run_view {A} n (c c' : cmd P T A) Q : view c = view c' -> runs n c Q -> runs n c' Q.
Proof. intros E H. destruct n; [exact I|]. cbn [runs] in *. rewrite <- E. exact H. Qed.

Lemma run_bind {A B} n : forall (c : cmd P T A) (k : A -> cmd P T B) Q,
  runs n c (fun m a => runs m (k a) Q) -> runs n (Bind c k) Q.
Proof.
  induction n as [|n IH]; intros c k Q H; [exact I|]. cbn [runs] in H. cbn [runs view].
  destruct (view c) eqn:E; try contradiction; cbn [hcont].
  - exact H.
  - apply IH. exact H.
  - destruct H as [H1 H2]. split; [exact H1|]. intros. apply IH; auto.
  - destruct H as (H1 & H2 & H3). split; [exact H1|]. split; [exact H2|]. apply IH; auto.
  - apply IH. exact H.
  - intros. apply IH; auto.
Qed.

Lemma run_incall {A} n : forall (c : cmd P T unit) (k : cmd P T A) Q,
  runs n c (fun _ _ => False) -> runs n (InCall c k) Q.
Proof.
  induction n as [|n IH]; intros c k Q H; [exact I|]. cbn [runs] in H. cbn [runs view].
  destruct (view c) eqn:E; try contradiction; cbn [hcont].
  - apply IH. exact H.
  - destruct H as [H1 H2]. split; [exact H1|]. intros. apply IH; auto.
  - destruct H as (H1 & H2 & H3). split; [exact H1|]. split; [exact H2|]. apply IH; auto.
  - apply IH. exact H.
  - intros. apply IH; auto.
Qed.

Lemma run_less {A} m : forall (c : cmd P T A), runs (S m) c (fun _ _ => False) -> runs m c (fun _ _ => False).
Proof.
  induction m as [|m IH]; intros c H; [exact I|].
  remember (S m) as m' eqn:Em. cbn [runs] in H. subst m'. cbn [runs].
  destruct (view c); try contradiction.
  - apply IH; auto.
  - destruct H as [H1 H2]. split; [exact H1|]. intros. apply IH; auto.
  - destruct H as (H1 & H2 & H3). split; [exact H1|]. split; [exact H2|]. apply IH; auto.
  - apply IH; auto.
  - intros. apply IH; auto.
Qed.

Lemma run_call {A} n p (k : cmd P T A) Q :
  runs n (body p) (fun _ _ => False) -> runs n (Lang.Call p k) Q.
Proof.
  intro H. destruct n as [|n]; [exact I|]. cbn [runs view].
  apply run_incall.
  apply run_less. exact H.
Qed.

Lemma run_loop {A S} n (s : S) (b : S -> cmd P T (S + A)) Q :
  runs (n - 1) (b s) (fun m r => match r with inl s' => runs m (Loop s' b) Q | inr a => Q m a end) ->
  runs n (Loop s b) Q.
Proof.
  intros H. destruct n as [|n]; [exact I|]. cbn [runs view]. simpl in H. rewrite Nat.sub_0_r in H.
  apply run_bind. eapply run_mono; [exact H|]. intros m [s'|a] Hm Hr; [exact Hr|].
  destruct m; [lia|]. exact Hr.
Qed.

Lemma run_ret {A} n (a : A) (Q : nat -> A -> Prop) : Q n a -> runs n (Ret a) Q.
Proof. destruct n; [intros; exact I|]. intro H. exact H. Qed.

Lemma run_sget {A} n s i (k : T -> cmd P T A) Q : (forall j, 0 <= j < len s -> Rg (off s + j)) ->
  0 <= i < len s -> (forall v, good v -> runs (n - 1) (k v) Q) -> runs n (Bind (sget s i) k) Q.
Proof.
  intros HR Hi H. apply run_bind. unfold sget. destruct (Z.leb_spec 0 i); [|lia].
  destruct (Z.ltb_spec i (len s)); [|lia]. cbn [andb]. destruct n as [|n]; [exact I|]. cbn [runs view].
  split; [apply HR; exact Hi|]. intros v Hv. specialize (H v Hv). simpl in H. rewrite Nat.sub_0_r in H.
  apply run_ret. exact H.
Qed.

(** Code that ends and does not touch memory. *)
Lemma run_swp {A} D n1 : forall N (c : cmd P T A) (Q1 : A -> nat -> (Z -> T) -> Prop) (Q : nat -> A -> Prop) v,
  swp body D n1 (fun _ => False) (fun _ => False) Q1 c v ->
  (forall a j m, (m <= N)%nat -> Q1 a j v -> Q m a) -> runs N c Q.
Proof.
  induction n1 as [|n1 IH]; intros N c Q1 Q v H HQ; rewrite swp_eq in H; destruct H as [_ H];
    (destruct N as [|N]; [exact I|]); cbn [runs]; destruct (view c); try contradiction; try (destruct H; contradiction).
  - eapply HQ; [|exact H]. lia.
  - eapply HQ; [|exact H]. lia.
  - eapply IH; [exact H|]. intros a j m Hm. apply HQ. lia.
  - eapply IH; [exact H|]. intros a j m Hm. apply HQ. lia.
Qed.

(** What that means on the machine. *)
Definition runInv {A} (k N : nat) (s : st P T A) : Prop :=
  thr s = [] /\ (forall i, Rg i -> good (mem (sh s) i)) /\ 0 <= maxg (sh s) <= M /\
  ((k <= N)%nat -> runs (N - k) (main s) (fun _ _ => False)).

Lemma run_pstep {A} k N (s s' : st P T A) : (k < N)%nat -> pstep body s s' -> runInv k N s -> runInv (S k) N s'.
Proof.
  intros HN Hs (Ht & Hm & Hg & HR). specialize (HR ltac:(lia)). replace (N - k)%nat with (S (N - S k)) in HR by lia.
  destruct Hs as [s s' [m ts s0 m' s0' fs He| | | | |]|m ts s0 k0 z Hz|]; cbn [main thr sh] in *; subst; try (destruct l1; discriminate);
    [|cbn [runs] in HR; rewrite Hz in HR; solve [contradiction|split; [reflexivity|]; cbn [main sh]; auto]].
  cbn [runs] in HR. unfold exec_local in He. destruct (view m) eqn:Ev; try contradiction; try discriminate;
    inversion He; subst.
  - split; [reflexivity|]. cbn [main sh]. auto.
  - destruct HR as [H1 H2]. split; [reflexivity|]. cbn [main sh]. auto.
  - destruct HR as (H1 & H2 & H3). split; [reflexivity|]. cbn [main sh mem maxg]. split; [|auto].
    intros j Hj. unfold upd. destruct (j =? i); auto.
  - split; [reflexivity|]. cbn [main sh]. auto.
  - split; [reflexivity|]. cbn [main sh]. auto.
Qed.

Lemma run_exec {A} (c : cmd P T A) m0 mg0 N k s : 0 <= mg0 <= M -> (forall i, Rg i -> good (m0 i)) ->
  runs N c (fun _ _ => False) ->
  exec body M Rg k (start c m0 mg0) s -> (k <= N)%nat -> runInv k N s.
Proof.
  intros Hg Hm HR H. remember (start c m0 mg0) as s0 eqn:E. induction H; subst; intro HN.
  - split; [reflexivity|]. cbn [start sh mem maxg main]. split; [exact Hm|]. split; [exact Hg|].
    intros _. rewrite Nat.sub_0_r. exact HR.
  - eapply run_pstep; [|eassumption|]; [lia|]. apply IHexec; [reflexivity|lia].
  - destruct (IHexec eq_refl HN) as (A1 & A2 & A3 & A4). destruct H0. cbn [main thr sh mem maxg] in *.
    split; [exact A1|]. cbn [sh mem maxg]. split; [|split; [assumption|exact A4]].
    intros i Hi. rewrite H1 by exact Hi. auto.
Qed.

Theorem run_forever {A} (c : cmd P T A) m0 mg0 k s : 0 <= mg0 <= M -> (forall i, Rg i -> good (m0 i)) ->
  (forall n, runs n c (fun _ _ => False)) -> exec body M Rg k (start c m0 mg0) s ->
  (forall r, ~ returned s r) /\ ~ panicked s /\ exists s', pstep body s s'.
Proof.
  intros Hg Hm HR H. destruct (run_exec c m0 mg0 (S k) k s Hg Hm (HR _) H ltac:(lia)) as (Ht & _ & _ & R).
  specialize (R ltac:(lia)). replace (S k - k)%nat with 1%nat in R by lia. cbn [runs] in R.
  unfold returned, panicked. rewrite Ht. split; [|split].
  - intros r E. rewrite E in R. exact R.
  - intros [E|(c0 & [] & _)]. rewrite E in R. exact R.
  - destruct s as [m ts s]. cbn [main thr] in *. subst ts.
    destruct (view m) eqn:E; try contradiction; eexists; apply step_now, step_main; unfold exec_local; rewrite E; reflexivity.
Qed.

End Run.

(** ** The sorters on values that compare as neither < nor <= to each other *)

Section Nan.
Context {Wd : word}.
Context {T K : Type}.
Variable kd : kind T K.
Variable tn : tuning.
Variable M : Z.
Variable s : slice.
Variable good : T -> Prop.
Variable c : K.
Hypothesis Hgood : forall x, good x -> key kd x = c.
Hypothesis Hlt : ltb kd c c = false.
Hypothesis Hle : leb kd c c = false.
Hypothesis Hev : even kd = false.
Hypothesis Hfc : fc kd = false.
Hypothesis Hlen : 9 <= maxLenIns tn < len s.
Hypothesis Hrec : 2 * maxLenIns tn < maxLenRec tn.
Hypothesis Hmax : len s < 2 * wq.
Notation run := (runs (body kd tn) M (cellsOf s) good).

Lemma same_slice (t : slice) : Slice (off t + 0) (len t - 0) = t.
Proof. destruct t. simpl. f_equal; lia. Qed.

Lemma mine : forall j, 0 <= j < len s -> cellsOf s (off s + j).
Proof. intros j Hj. unfold cellsOf. lia. Qed.

Lemma nan_pivotShort n (Q : nat -> K -> Prop) : (forall m, (m <= n)%nat -> Q m c) -> run n (pivotShort kd s) Q.
Proof.
  intro HQ. unfold pivotShort. rewrite Hev, uw_small by lia.
  destruct (minMaxSample_ok (Wd := Wd) (len s) 3) as (f & st & E & Hf & Hst & Hl); [lia|lia|lia|].
  rewrite E, uw_small by lia.
  apply run_sget; [exact mine|lia|]. intros x Hx. apply run_sget; [exact mine|lia|]. intros y Hy.
  apply run_sget; [exact mine|lia|]. intros z Hz. rewrite (Hgood x), (Hgood y), (Hgood z), !Hlt by assumption.
  apply run_ret. apply HQ. lia.
Qed.

(** The whole slice is taken to belong to the left part. *)
Lemma nan_partOne n (Q : nat -> Z -> Prop) : (forall m, (m <= n)%nat -> Q m (len s)) -> run n (partOne kd s c) Q.
Proof.
  intros HQ. unfold partOne. match goal with |- context [Loop _ ?b] => set (B := b) end.
  set (h := len s - 1).
  assert (Scan : forall j l m, (m <= n)%nat -> l = h - Z.of_nat (S j) -> 0 <= l -> run m (Loop (LScan l h) B) Q).
  { induction j as [|j IH]; intros l m Hm El Hl; apply run_loop; unfold B at 1;
      apply run_sget; try exact mine; try lia; intros x Hx; rewrite (Hgood x Hx), Hle; cbv zeta;
      destruct (Z.leb_spec h (l + 1)); try lia; apply run_ret.
    - replace (l + 1 + 1) with (len s) by lia. apply HQ. lia.
    - apply IH; lia. }
  apply run_loop. unfold B at 1. destruct (Z.leb_spec h 0); [lia|].
  apply run_sget; [exact mine|lia|]. intros x Hx. rewrite (Hgood x Hx), Hle. apply run_ret.
  apply (Scan (Z.to_nat (h - 1))); lia.
Qed.

Lemma nan_split n (Q : nat -> slice * slice -> Prop) : Q n (Slice (off s + len s) 0, s) ->
  run n (split s (len s)) Q.
Proof.
  intro HQ. unfold split. destruct (Z.ltb_spec (len s) (len s - len s)); [lia|].
  unfold reslice. destruct (Z.leb_spec 0 (len s)); [|lia]. destruct (Z.leb_spec (len s) (len s)); [|lia].
  cbn [andb Z.leb Z.compare]. apply run_bind, run_ret, run_bind, run_ret, run_ret.
  replace (Slice (off s + len s) (len s - len s)) with (Slice (off s + len s) 0) by (f_equal; lia).
  rewrite same_slice. apply HQ.
Qed.

Lemma nan_empty n o (Q : nat -> unit -> Prop) : (forall m, (m <= n)%nat -> Q m tt) ->
  run n (insertion (ltT kd) (Slice o 0)) Q.
Proof. intros HQ. unfold insertion. apply run_loop. cbn [len]. apply run_ret. apply HQ. lia. Qed.

Lemma nan_pivot n (Q : nat -> K -> Prop) : (forall m, (m <= n)%nat -> Q m c) -> run n (pivot kd s 5) Q.
Proof.
  intro HQ. unfold pivot. rewrite uw_small by lia.
  destruct (minMaxSample_ok (Wd := Wd) (len s) 5) as (f & st & E & Hf & Hst & Hl); [lia|lia|lia|].
  rewrite E. apply run_bind. unfold samples.
  assert (U : forall x, 0 <= x < 4 * wq -> uw x = x) by (intros; apply uw_small; lia).
  apply run_loop. cbn [Z.leb Z.compare Z.sub Z.add Z.opp Z.pos_sub Pos.pred_double Z.pred_double].
  apply run_sget; [exact mine|lia|]. intros w Hw. rewrite U by lia. rewrite (Hgood w Hw). apply run_ret.
  do 4 (apply run_loop; cbn [Z.leb Z.compare Z.sub Z.add Z.opp Z.pos_sub Pos.pred_double Z.pred_double];
    apply run_sget; [exact mine|lia|];
    let x := fresh "x" in let Hx := fresh "Hx" in intros x Hx; rewrite U by lia; rewrite (Hgood x Hx); clear x Hx; apply run_ret).
  apply run_loop; cbn [Z.leb Z.compare Z.sub Z.add Z.opp Z.pos_sub]. apply run_ret.
  match goal with |- runs _ _ _ _ ?m _ _ => assert (Hm : (m <= n)%nat) by lia; revert Hm; generalize m end.
  intros m Hm. rewrite Hev.
  eapply (run_swp _ _ _ _ O (S (Z.to_nat (cIns 5))) m _ (fun x _ _ => x = c) Q (fun _ => w)).
  2:{ intros a j m' H1 ->. apply HQ. lia. }
  change [c; c; c; c; c] with (seg (fun _ => c) 0 5).
  eapply (swp_local (body kd tn) (fun _ => Panic) O _ (Z.to_nat (cIns 5)) 5 _ _
    (fun vl' => bubble (ltb kd) (seg (fun _ => c) 0 5) (seg vl' 0 5)) _ _ _ (fun _ => c) (fun _ => w) (fun _ => eq_refl)).
  { eapply swp_use; [apply (swp_insertion (fun _ => Panic) (ltb kd) (eq c)) with (s := Slice 0 5) (v0 := fun _ => c) (D := O)|..].
    - intros x y <- <- _. exact Hlt.
    - intros x y z <- <- <- _ _. exact Hlt.
    - simpl. lia.
    - auto.
    - lia.
    - simpl. lia.
    - unfold reg; simpl. intros; lia.
    - unfold reg; simpl. intros; lia.
    - intros a k v' _ H. exact (proj1 H). }
  { lia. }
  intros vl' k Hk Hb. apply bubble_perm in Hb.
  rewrite lget_seg by (cbn; lia). apply swp_ret.
  assert (Hin : In (vl' (Z.shiftr 5 1)) (seg (fun _ => c) 0 5)).
  { eapply Permutation.Permutation_in; [exact Hb|]. unfold seg. apply in_map. apply In_zrange. cbn. lia. }
  unfold seg in Hin. apply in_map_iff in Hin. destruct Hin as (x & Hx & _). symmetry. exact Hx.
Qed.

Lemma nan_short n : run n (short kd tn s) (fun _ _ => False).
Proof.
  unfold short. rewrite Hfc. match goal with |- context [Loop _ ?b] => set (B := b) end.
  induction n as [n IH] using lt_wf_ind. destruct n as [|n]; [exact I|].
  apply run_loop. replace (S n - 1)%nat with n by lia. unfold B at 1.
  apply run_bind, nan_pivotShort. intros m1 H1. apply run_bind, nan_partOne. intros m2 H2.
  apply run_bind, nan_split. cbn [len]. destruct (Z.ltb_spec (maxLenIns tn) 0); [lia|]. apply run_ret.
  apply run_loop. unfold B at 1. apply run_bind, nan_empty. intros m3 H3.
  destruct (Z.ltb_spec (maxLenIns tn) (len s)); [|lia]. apply run_ret. apply IH. lia.
Qed.

Lemma nan_long n : maxLenRec tn < len s -> run n (long kd tn s false) (fun _ _ => False).
Proof.
  intro HL. unfold long. rewrite Hfc. match goal with |- context [Loop _ ?b] => set (B := b) end.
  induction n as [n IH] using lt_wf_ind. destruct n as [|n]; [exact I|].
  apply run_loop. replace (S n - 1)%nat with n by lia. unfold B at 1. unfold nsamples. rewrite Hev.
  apply run_bind, nan_pivot. intros m1 H1. apply run_bind, nan_partOne. intros m2 H2.
  apply run_bind, nan_split. cbn [len]. destruct (Z.leb_spec 0 (maxLenRec tn)); [|lia].
  destruct (Z.ltb_spec (maxLenIns tn) 0); [lia|].
  apply run_bind, nan_empty. intros m3 H3.
  destruct (Z.ltb_spec (maxLenRec tn) (len s)); [|lia]. apply run_ret. apply IH. lia.
Qed.

Lemma nan_sort n meanI : (len s < minConc kd tn \/ M <= 1) -> run n (sort kd tn meanI s) (fun _ _ => False).
Proof.
  intro HM. unfold sort. rewrite Hfc.
  assert (G : forall m, run m (if maxLenRec tn <? len s then Lang.Call (PLong s false) (Ret tt)
      else if maxLenIns tn <? len s then Lang.Call (PShort s) (Ret tt) else insertion (ltT kd) s) (fun _ _ => False)).
  { intro m. destruct (Z.ltb_spec (maxLenRec tn) (len s)).
    - apply run_call. apply nan_long. lia.
    - destruct (Z.ltb_spec (maxLenIns tn) (len s)); [|lia]. apply run_call. apply nan_short. }
  apply run_bind. destruct (Z.ltb_spec (len s) (minConc kd tn)).
  - apply run_ret. apply G.
  - destruct n as [|n]; [exact I|]. cbn [runs view]. intros mg Hmg. apply run_ret.
    destruct (Z.leb_spec mg 1); [apply G|lia].
Qed.

End Nan.

(** With NaNignore (or any other option value), on a slice of NaNs (with any payloads) longer
    than MaxLenIns, sorted in the caller's goroutine. *)
Theorem nan_never_returns pl tn e opt s m0 M k st : isFloat e = true -> opt <> 1 -> opt <> -1 ->
  tuningOk pl tn -> maxLenIns tn < len s < intSize pl -> Forall (nan e) (contents m0 s) ->
  (len s < 2 * (maxLenRec tn + 1) \/ M <= 1) ->
  reach (typedCall pl tn opt e s m0) M k st ->
  (forall r, ~ returned st r) /\ ~ panicked st /\ exists st', pstep (cProcs (typedCall pl tn opt e s m0)) st st'.
Proof.
  intros He O1 O2 Ht Hs HN HM (mg0 & Hmg & Hx).
  assert (HI := intSize_eq pl).
  assert (Ev : even (kindOf pl e) = false /\ fc (kindOf pl e) = false) by (destruct e; try discriminate; auto).
  destruct Ev as [Ev Fc].
  assert (HK : exists c, (forall x, nan e x -> key (kindOf pl e) x = c) /\
                ltb (kindOf pl e) c c = false /\ leb (kindOf pl e) c c = false).
  { destruct e; try discriminate; exists Floats.SpecFloat.S754_nan; (split; [|split; reflexivity]);
      intros x Hn; cbn [kindOf key nan] in *; apply decode_nan in Hn; try lia; exact Hn. }
  destruct HK as (c & Hk & N1 & N2).
  assert (T1 := tuning_ins (kindOf pl e) tn Ht). assert (T2 := tuning_rec (kindOf pl e) tn Ht).
  assert (T3 := tuning_rec2 (kindOf pl e) tn Ht). unfold TypedShort.maxIns, TypedShort.maxRec in *. rewrite Fc in *.
  eapply (run_forever (procs pl tn e) M (cellsOf s) (nan e)); [exact Hmg| | |exact Hx].
  - intros i Hi. unfold cellsOf in Hi. rewrite Forall_forall in HN. apply HN. unfold contents. apply in_map_iff.
    exists (Z.to_nat (i - off s)). split; [|apply in_seq; lia].
    replace (off s + Z.of_nat (Z.to_nat (i - off s))) with i by lia. reflexivity.
  - intro n. cbn [cProg typedCall]. unfold sortProg, sortLive. rewrite He. apply run_bind.
    unfold prepass. destruct (Z.eqb_spec opt NaNlarge); [contradiction|].
    destruct (Z.eqb_spec opt NaNsmall); [contradiction|]. apply run_ret.
    eapply (nan_sort (kindOf pl e) tn M s (nan e) c Hk N1 N2 Ev Fc); try lia.
    unfold minConc. rewrite Fc, iw_small by lia. lia.
Qed.
