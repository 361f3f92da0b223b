(** * A call that need not end: elements changed by others while they are sorted *)

From Coq Require Import List ZArith Lia Bool.
From Verif Require Import Lang SeqLogic Base SeqOps Scalar ScalarFacts Typed Kinds Spec KindsFacts TypedShort TypedLong TypedSort TypedApi Calls Oracle.
Import ListNotations.
Open Scope Z_scope.

(** ** Executions of a lone goroutine whose environment chooses what it reads

    [may n c Q]: with suitable [good] values in the cells of [Rg] at every read, [n] more steps of
    [c] are possible, reading 0 from MaxGor; if [c] returns [a] before that, [Q] holds of the
    number of steps left and [a].  (Nothing is said of code that writes.) *)

Section May.
Context {Wd : word}.
Context {P T : Type}.
Variable body : P -> cmd P T unit.
Variable Rg : Z -> bool.
Variable good : T -> Prop.

Fixpoint may {A} (n : nat) (c : cmd P T A) (Q : nat -> A -> Prop) {struct n} : Prop :=
  match n with
  | O => True
  | S n' =>
    match view c with
    | HRet a => Q n a
    | HTau c' => may n' c' Q
    | HRead i k => Rg i = true /\ exists v, good v /\ may n' (k v) Q
    | HCall p k => may n' (k (body p)) Q
    | HLoadMax k => may n' (k 0) Q
    | _ => False
    end
  end.

Lemma may_mono {A} n : forall (c : cmd P T A) (Q Q' : nat -> A -> Prop),
  may n c Q -> (forall m a, (1 <= m <= n)%nat -> Q m a -> Q' m a) -> may n c Q'.
Proof.
  induction n as [|n IH]; intros c Q Q' H HQ; [exact I|]. cbn [may] in *.
  assert (HQ' : forall m a, (1 <= m <= n)%nat -> Q m a -> Q' m a) by (intros; apply HQ; [lia|assumption]).
  destruct (view c); try contradiction.
  - apply HQ; [lia|exact H].
  - eapply IH; eauto.
  - destruct H as (H1 & v & H2 & H3). split; [exact H1|]. exists v. split; [exact H2|]. eapply IH; eauto.
  - eapply IH; eauto.
  - eapply IH; eauto.
Qed.

Lemma may_bind {A B} n : forall (c : cmd P T A) (k : A -> cmd P T B) Q,
  may n c (fun m a => may m (k a) Q) -> may n (Bind c k) Q.
Proof.
  induction n as [|n IH]; intros c k Q H; [exact I|]. cbn [may] in H. cbn [may view].
  destruct (view c) eqn:E; try contradiction; cbn [hcont].
  - exact H.
  - apply IH. exact H.
  - destruct H as (H1 & v & H2 & H3). split; [exact H1|]. exists v. split; [exact H2|]. apply IH; auto.
  - apply IH. exact H.
  - apply IH. exact H.
Qed.

Lemma may_incall {A} n : forall (c : cmd P T unit) (k : cmd P T A) Q,
  may n c (fun _ _ => False) -> may n (InCall c k) Q.
Proof.
  induction n as [|n IH]; intros c k Q H; [exact I|]. cbn [may] in H. cbn [may view].
  destruct (view c) eqn:E; try contradiction; cbn [hcont].
  - apply IH. exact H.
  - destruct H as (H1 & v & H2 & H3). split; [exact H1|]. exists v. split; [exact H2|]. apply IH; auto.
  - apply IH. exact H.
  - apply IH. exact H.
Qed.

Lemma may_less {A} m : forall (c : cmd P T A), may (S m) c (fun _ _ => False) -> may m c (fun _ _ => False).
Proof.
  induction m as [|m IH]; intros c H; [exact I|].
  remember (S m) as m' eqn:Em. cbn [may] in H. subst m'. cbn [may].
  destruct (view c); try contradiction.
  - apply IH; auto.
  - destruct H as (H1 & v & H2 & H3). split; [exact H1|]. exists v. split; [exact H2|]. apply IH; auto.
  - apply IH; auto.
  - apply IH; auto.
Qed.

Lemma may_call {A} n p (k : cmd P T A) Q : may n (body p) (fun _ _ => False) -> may n (Lang.Call p k) Q.
Proof.
  intro H. destruct n as [|n]; [exact I|]. cbn [may view]. apply may_incall, may_less. exact H.
Qed.

Lemma may_loop {A S} n (s : S) (b : S -> cmd P T (S + A)) Q :
  may (n - 1) (b s) (fun m r => match r with inl s' => may m (Loop s' b) Q | inr a => Q m a end) ->
  may n (Loop s b) Q.
Proof.
  intros H. destruct n as [|n]; [exact I|]. cbn [may view]. simpl in H. rewrite Nat.sub_0_r in H.
  apply may_bind. eapply may_mono; [exact H|]. intros m [s'|a] Hm Hr; [exact Hr|].
  destruct m; [lia|]. exact Hr.
Qed.

Lemma may_ret {A} n (a : A) (Q : nat -> A -> Prop) : Q n a -> may n (Ret a) Q.
Proof. destruct n; [intros; exact I|]. intro H. exact H. Qed.

Lemma may_sget {A} n s i (k : T -> cmd P T A) Q v : (forall j, 0 <= j < len s -> Rg (off s + j) = true) ->
  0 <= i < len s -> good v -> may (n - 1) (k v) Q -> may n (Bind (sget s i) k) Q.
Proof.
  intros HR Hi Hv H. apply may_bind. unfold sget. destruct (Z.leb_spec 0 i); [|lia].
  destruct (Z.ltb_spec i (len s)); [|lia]. cbn [andb]. destruct n as [|n]; [exact I|]. cbn [may view].
  split; [apply HR; exact Hi|]. exists v. split; [exact Hv|]. simpl in H. rewrite Nat.sub_0_r in H.
  apply may_ret. exact H.
Qed.

(** Code that ends and does not touch memory. *)
Lemma may_swp {A} D n1 : forall N (c : cmd P T A) (Q1 : A -> nat -> (Z -> T) -> Prop) (Q : nat -> A -> Prop) v,
  swp body D n1 (fun _ => False) (fun _ => False) Q1 c v ->
  (forall a j m, (m <= N)%nat -> Q1 a j v -> Q m a) -> may N c Q.
Proof.
  induction n1 as [|n1 IH]; intros N c Q1 Q v H HQ; rewrite swp_eq in H; destruct H as [_ H];
    (destruct N as [|N]; [exact I|]); cbn [may]; destruct (view c); try contradiction; try (destruct H; contradiction).
  - eapply HQ; [|exact H]. lia.
  - eapply HQ; [|exact H]. lia.
  - eapply IH; [exact H|]. intros a j m Hm. apply HQ. lia.
  - eapply IH; [exact H|]. intros a j m Hm. apply HQ. lia.
Qed.

(** What that means on the machine: before every read the environment writes the value. *)
Lemma may_exec {A} M n : forall (c : cmd P T A) w, may n c (fun _ _ => False) -> maxg w = 0 -> 0 <= M ->
  (forall i, Rg i = true -> good (mem w i)) ->
  exists st, exec body M (fun _ => False) n (St c [] w) st /\ forall i, Rg i = true -> good (mem (sh st) i).
Proof.
  induction n as [|n IH]; intros c w H Hw HM Hgd; [exists (St c [] w); split; [constructor|exact Hgd]|]. cbn [may] in H.
  assert (K : forall c' w1 w', may n c' (fun _ _ => False) -> exec_local body c w1 = Some (c', w', []) -> maxg w' = 0 ->
    (forall i, Rg i = true -> good (mem w' i)) ->
    exec body M (fun _ => False) O (St c [] w) (St c [] w1) ->
    exists st, exec body M (fun _ => False) (S n) (St c [] w) st /\ forall i, Rg i = true -> good (mem (sh st) i)).
  { intros c' w1 w' H1 He Hw' Hgd' H0. destruct (IH c' w' H1 Hw' HM Hgd') as (st & Hs & Hg). exists st. split; [|exact Hg].
    replace (S n) with (n + 1)%nat by lia. eapply exec_trans; [|exact Hs].
    eapply exec_prog; [exact H0|]. change (@nil (cmd P T unit)) with (@nil (cmd P T unit) ++ []) at 2. apply step_now, step_main. exact He. }
  unfold exec_local in K. destruct (view c) eqn:E; try contradiction.
  - eapply K; [exact H|reflexivity|exact Hw|exact Hgd|constructor].
  - destruct H as (H1 & v & H2 & H3). destruct w as [m0 ng mg ch]. cbn [maxg mem] in Hw, Hgd.
    set (m1 := fun j => if Rg j then v else m0 j).
    eapply (K (k v) (Sh m1 ng mg ch) (Sh m1 ng mg ch) H3); [|exact Hw| |].
    + cbn [mem]. unfold m1. rewrite H1. reflexivity.
    + cbn [mem]. intros j Hj. unfold m1. rewrite Hj. exact H2.
    + eapply exec_env; [constructor|]. apply (env_step M (fun _ => False) c [] (Sh m0 ng mg ch) m1 mg); [lia|intros j []].
  - eapply K; [exact H|reflexivity|exact Hw|exact Hgd|constructor].
  - eapply K; [exact H|rewrite Hw; reflexivity|exact Hw|exact Hgd|constructor].
Qed.

End May.

(** ** The short sorters: a pivot taken from large values, then only small ones *)

Lemma repeat_shift {A} (x : A) k l : repeat x k ++ x :: l = repeat x (S k) ++ l.
Proof. induction k as [|k IH]; [reflexivity|]. cbn [repeat app]. f_equal. exact IH. Qed.

Lemma same_at s a b : a = off s -> b = len s -> s = Slice a b.
Proof. destruct s. cbn. intros -> ->. reflexivity. Qed.

Section Swing.
Context {Wd : word}.
Context {T K : Type}.
Variable kd : kind T K.
Variable tn : tuning.
Variable s : slice.
Variables (hi lo : T).
Variable good : T -> Prop.
Hypothesis Ghi : good hi.
Hypothesis Glo : good lo.
Notation c := (key kd hi).
Hypothesis Hlt : ltb kd c c = false.
Hypothesis Hmean : mean kd c c = c.
Hypothesis Hle : leb kd c (key kd lo) = false.
Notation maxIns := (maxIns kd tn).
Notation maxRec := (maxRec kd tn).
Hypothesis Hlen : 9 <= maxIns < len s.
Hypothesis Hrec : 2 * maxIns < maxRec.
Hypothesis Hmax : len s < 2 * wq.
Definition ours (i : Z) : bool := (off s <=? i) && (i <? off s + len s).
Notation run := (may (body kd tn) ours good).

Lemma ours_in : forall j, 0 <= j < len s -> ours (off s + j) = true.
Proof. intros j Hj. unfold ours. lia. Qed.

Ltac rd x := apply (may_sget _ _ _ _ _ _ _ _ x); [exact ours_in|lia|assumption|].

Lemma swing_pivotShort n (Q : nat -> K -> Prop) : (forall m, (m <= n)%nat -> Q m c) -> run n (pivotShort kd s) Q.
Proof.
  intro HQ. unfold pivotShort. destruct (even kd).
  - destruct (minMaxFour (u32 (len s))) as [first step] eqn:E.
    destruct (minMaxFour_ok (len s) first step ltac:(lia) E) as (HA & HB & HC & HD).
    do 4 rd hi. cbv zeta. rewrite !Hlt, !Hmean. apply may_ret. apply HQ. lia.
  - rewrite uw_small by lia.
    destruct (minMaxSample_ok (Wd := Wd) (len s) 3) as (f & st & E & Hf & Hst & Hl); [lia|lia|lia|].
    rewrite E, uw_small by lia. do 3 rd hi. cbv zeta. rewrite !Hlt. apply may_ret. apply HQ. lia.
Qed.

(** The whole slice is taken to belong to the left part. *)
Lemma swing_partOne n (Q : nat -> Z -> Prop) : (forall m, (m <= n)%nat -> Q m (len s)) -> run n (partOne kd s c) Q.
Proof.
  intros HQ. unfold partOne. match goal with |- context [Loop _ ?b] => set (B := b) end.
  set (h := len s - 1).
  assert (Scan : forall j l m, (m <= n)%nat -> l = h - Z.of_nat (S j) -> 0 <= l -> run m (Loop (LScan l h) B) Q).
  { induction j as [|j IH]; intros l m Hm El Hl; apply may_loop; unfold B at 1;
      rd lo; rewrite Hle; cbv zeta;
      destruct (Z.leb_spec h (l + 1)); try lia; apply may_ret.
    - replace (l + 1 + 1) with (len s) by lia. apply HQ. lia.
    - apply IH; lia. }
  apply may_loop. unfold B at 1. destruct (Z.leb_spec h 0); [lia|].
  rd lo. rewrite Hle. apply may_ret. apply (Scan (Z.to_nat (h - 1))); lia.
Qed.

Lemma swing_split n (Q : nat -> slice * slice -> Prop) : Q n (Slice (off s + len s) 0, s) ->
  run n (split s (len s)) Q.
Proof.
  intro HQ. unfold split. destruct (Z.ltb_spec (len s) (len s - len s)); [lia|].
  unfold reslice. destruct (Z.leb_spec 0 (len s)); [|lia]. destruct (Z.leb_spec (len s) (len s)); [|lia].
  cbn [andb Z.leb Z.compare]. apply may_bind, may_ret, may_bind, may_ret, may_ret.
  replace (Slice (off s + len s) (len s - len s)) with (Slice (off s + len s) 0) by (f_equal; lia).
  rewrite <- (same_at s (off s + 0) _) by lia. apply HQ.
Qed.

Lemma swing_empty n o (Q : nat -> unit -> Prop) : (forall m, (m <= n)%nat -> Q m tt) ->
  run n (insertion (ltT kd) (Slice o 0)) Q.
Proof. intros HQ. unfold insertion. apply may_loop. cbn [len]. apply may_ret. apply HQ. lia. Qed.

Lemma swing_short n : run n (short kd tn s) (fun _ _ => False).
Proof.
  rewrite short_unfold. set (B := shortBody kd tn).
  induction n as [n IH] using lt_wf_ind. destruct n as [|n]; [exact I|].
  apply may_loop. replace (S n - 1)%nat with n by lia. unfold B, shortBody at 1.
  apply may_bind, swing_pivotShort. intros m1 H1. apply may_bind, swing_partOne. intros m2 H2.
  apply may_bind, swing_split. cbn [len]. destruct (Z.ltb_spec maxIns 0); [lia|]. apply may_ret.
  apply may_loop. unfold shortBody at 1. apply may_bind, swing_empty. intros m3 H3.
  destruct (Z.ltb_spec maxIns (len s)); [|lia]. apply may_ret. apply IH. lia.
Qed.

Lemma swing_samples k f st : (0 < k)%nat -> 0 <= f -> 0 <= st -> f + Z.of_nat (pred k) * st < len s -> f + Z.of_nat k * st < 4 * wq ->
  forall n acc (Q : nat -> list K -> Prop), (forall m, (m <= n)%nat -> Q m (repeat c k ++ acc)) ->
  run n (Loop (Z.of_nat k - 1, f, acc) (fun '(i, f, acc) =>
    if 0 <=? i then x <- sget s f ;; goto (i - 1, uw (f + st), key kd x :: acc) else done acc)) Q.
Proof.
  intro Hk. revert f. induction k as [|k IH]; intros f Hf Hst Hl Hu n acc Q HQ; [lia|].
  apply may_loop. destruct (Z.leb_spec 0 (Z.of_nat (S k) - 1)); [|lia].
  cbn [Nat.pred] in Hl. assert (0 <= Z.of_nat k * st) by nia. assert (f < len s) by lia. rd hi.
  rewrite uw_small by nia. apply may_ret. destruct k as [|k].
  - apply may_loop. cbn. apply may_ret. apply HQ. lia.
  - replace (Z.of_nat (S (S k)) - 1 - 1) with (Z.of_nat (S k) - 1) by lia. apply IH; try lia.
    intros m Hm. rewrite repeat_shift. apply HQ. lia.
Qed.

Lemma swing_pivot n j (Q : nat -> K -> Prop) : j = 5%nat \/ j = 6%nat -> even kd = Nat.even j -> 12 <= len s -> (forall m, (m <= n)%nat -> Q m c) ->
  run n (pivot kd s (Z.of_nat j)) Q.
Proof.
  intros Hj He HL HQ. unfold pivot. rewrite uw_small by lia.
  destruct (minMaxSample_ok (Wd := Wd) (len s) (Z.of_nat j)) as (f & st & E & Hf & Hst & Hl); [lia|lia|lia|].
  rewrite E. apply may_bind. unfold samples. apply (swing_samples j f st); [lia|lia|lia|destruct Hj as [-> | ->]; cbn [Nat.pred]; lia|destruct Hj as [-> | ->]; lia|].
  intros m Hm. rewrite app_nil_r, He.
  eapply (may_swp _ _ _ O (S (Z.to_nat (cIns (Z.of_nat j)))) m _ (fun x _ _ => x = c) Q (fun _ => hi)).
  2:{ intros a i m' H1 ->. apply HQ. lia. }
  assert (ES : repeat c j = seg (fun _ => c) 0 (Z.of_nat j)) by (destruct Hj as [-> | ->]; reflexivity). rewrite ES.
  eapply (swp_local (body kd tn) (fun _ => Panic) O _ (Z.to_nat (cIns (Z.of_nat j))) (Z.of_nat j) _ _
    (fun vl' => bubble (ltb kd) (seg (fun _ => c) 0 (Z.of_nat j)) (seg vl' 0 (Z.of_nat j))) _ _ _ (fun _ => c) (fun _ => hi) (fun _ => eq_refl)).
  { eapply swp_use; [apply (swp_insertion (fun _ => Panic) (ltb kd) (eq c)) with (s := Slice 0 (Z.of_nat j)) (v0 := fun _ => c) (D := O)|..].
    - intros x y <- <- _. exact Hlt.
    - intros x y z <- <- <- _ _. exact Hlt.
    - simpl. lia.
    - auto.
    - lia.
    - simpl. lia.
    - unfold reg; simpl. intros; lia.
    - unfold reg; simpl. intros; lia.
    - intros a k v' _ H. exact (proj1 H). }
  { lia. }
  intros vl' k Hk Hb. apply bubble_perm in Hb.
  assert (G : forall i, 0 <= i < Z.of_nat j -> vl' i = c).
  { intros i Hi. assert (Hin : In (vl' i) (seg (fun _ => c) 0 (Z.of_nat j))).
    { eapply Permutation.Permutation_in; [exact Hb|]. unfold seg. apply in_map. apply In_zrange. lia. }
    unfold seg in Hin. apply in_map_iff in Hin. destruct Hin as (x & Hx & _). symmetry. exact Hx. }
  destruct Hj as [-> | ->]; cbn [Nat.even]; rewrite ?lget_seg by (cbn; lia); apply swp_ret; rewrite !G by (cbn; lia); [reflexivity|exact Hmean].
Qed.

Lemma swing_long n : maxRec < len s -> run n (long kd tn s false) (fun _ _ => False).
Proof.
  intro HL. rewrite long_unfold. set (B := longBody kd tn false).
  induction n as [n IH] using lt_wf_ind. destruct n as [|n]; [exact I|].
  apply may_loop. replace (S n - 1)%nat with n by lia. unfold B, longBody at 1.
  apply may_bind. assert (EN : exists j, nsamples kd nsLong = Z.of_nat j /\ (j = 5%nat \/ j = 6%nat) /\ even kd = Nat.even j).
  { unfold nsamples, nsLong. destruct (even kd); [exists 6%nat|exists 5%nat]; repeat split; auto. }
  destruct EN as (j & -> & Hj & Ej). apply swing_pivot; [exact Hj|exact Ej|lia|]. intros m1 H1. apply may_bind, swing_partOne. intros m2 H2.
  apply may_bind, swing_split. cbn [len]. destruct (Z.leb_spec 0 maxRec); [|lia].
  destruct (Z.ltb_spec maxIns 0); [lia|].
  apply may_bind, swing_empty. intros m3 H3.
  destruct (Z.ltb_spec maxRec (len s)); [|lia]. apply may_ret. apply IH. lia.
Qed.

Lemma swing_sort n meanI : run n (sort kd tn meanI s) (fun _ _ => False).
Proof.
  unfold sort. assert (G : forall m, run m (if maxRec <? len s then Lang.Call (PLong s false) (Ret tt)
    else if maxIns <? len s then Lang.Call (PShort s) (Ret tt) else insertion (ltT kd) s) (fun _ _ => False)).
  { intro m. destruct (Z.ltb_spec maxRec (len s)).
    - apply may_call. apply swing_long. lia.
    - destruct (Z.ltb_spec maxIns (len s)); [|lia]. apply may_call. apply swing_short. }
  apply may_bind. destruct (Z.ltb_spec (len s) (minConc kd tn)).
  - apply may_ret. apply G.
  - destruct n as [|n]; [exact I|]. cbn [may view]. apply may_ret. apply G.
Qed.

Lemma swing_prepass n ne o1 o2 (Q : nat -> slice -> Prop) : ne hi = false -> (forall m, (m <= n)%nat -> Q m s) ->
  run n (prepass ne o1 o2 s) Q.
Proof.
  intros Hne HQ. unfold prepass. destruct (o1 =? NaNlarge); [|destruct (o2 =? NaNsmall); [|apply may_ret; apply HQ; lia]].
  - unfold nanToEnd. apply may_bind. match goal with |- context [Loop _ ?b] => set (B := b) end.
    assert (G : forall j l m, (m <= n)%nat -> l = len s - Z.of_nat j -> 0 <= l ->
      run m (Loop (l, len s - 1) B) (fun m h => run m (reslice s 0 (h + 1)) Q)).
    { induction j as [|j IH]; intros l m Hm El Hl; apply may_loop; unfold B at 1; destruct (Z.leb_spec l (len s - 1)); try lia.
      - apply may_ret. unfold reslice. replace ((0 <=? 0) && (0 <=? len s - 1 + 1) && (len s - 1 + 1 <=? len s)) with true by lia.
        apply may_ret. rewrite <- (same_at s (off s + 0) _) by lia. apply HQ. lia.
      - rd hi. rewrite Hne. rd hi. rewrite Hne. apply may_ret. apply IH; lia. }
    apply (G (Z.to_nat (len s))); lia.
  - unfold nanToStart. apply may_bind. match goal with |- context [Loop _ ?b] => set (B := b) end.
    assert (G : forall j h m, (m <= n)%nat -> h = Z.of_nat j - 1 -> h < len s ->
      run m (Loop (0, h) B) (fun m l => run m (reslice s l (len s)) Q)).
    { induction j as [|j IH]; intros h m Hm El Hl; apply may_loop; unfold B at 1; destruct (Z.leb_spec 0 h); try lia.
      - apply may_ret. unfold reslice. replace ((0 <=? 0) && (0 <=? len s) && (len s <=? len s)) with true by lia.
        apply may_ret. rewrite <- (same_at s (off s + 0) _) by lia. apply HQ. lia.
      - rd hi. rewrite Hne. rd hi. rewrite Hne. apply may_ret. apply IH; lia. }
    apply (G (Z.to_nat (len s))); lia.
Qed.

End Swing.

(** Two values of every element type. *)
Lemma two_values pl e : platOk pl -> exists hi lo : elem e, wellTyped pl e hi /\ wellTyped pl e lo /\ selfNe e hi = false /\
  let kd := kindOf pl e in ltb kd (key kd hi) (key kd hi) = false /\ mean kd (key kd hi) (key kd hi) = key kd hi /\
  leb kd (key kd hi) (key kd lo) = false.
Proof.
  intros (Hw & H4 & H8 & U4 & U8 & HI & _). unfold between in *.
  assert (I2 : 2 <= intSize pl) by (unfold intSize; destruct Hw as [-> | ->]; cbn; lia).
  assert (S4 : forall f, (forall x y, - 2 ^ 31 <= x -> x <= y -> y < 2 ^ 31 -> x <= f x y <= y) -> f 1 1 = 1) by (intros f Hf; specialize (Hf 1 1); lia).
  destruct e.
  1-4: exists 1, 0; cbn [wellTyped selfNe kindOf ltb leb mean key];
    try change (signed 32 1) with 1; try change (signed 64 1) with 1;
    (split; [lia|]); (split; [lia|]); (split; [reflexivity|]); (split; [reflexivity|]); (split; [|reflexivity]).
  - specialize (H4 1 1). lia.
  - specialize (H8 1 1). lia.
  - specialize (U4 1 1). lia.
  - specialize (U8 1 1). lia.
  - exists 1, 0. cbn [wellTyped]. split; [lia|]. split; [lia|]. repeat split; reflexivity.
  - exists 1, 0. cbn [wellTyped]. split; [lia|]. split; [lia|]. repeat split; reflexivity.
  - exists (StrH 0 [0]), (StrH 0 []). cbn [wellTyped sbytes length]. split; [lia|]. split; [lia|]. repeat split; reflexivity.
  - exists (SlcH 0 1 [0]), (SlcH 0 0 []). cbn [wellTyped bbytes length]. split; [lia|]. split; [lia|]. repeat split; reflexivity.
  - exists (StrH 0 [0]), (StrH 0 []). cbn [wellTyped sbytes length]. split; [lia|]. split; [lia|]. split; [reflexivity|].
    split; [reflexivity|]. split; [|reflexivity]. cbn. specialize (HI 1 1). lia.
  - exists (AnyH 0 1 1), (AnyH 0 0 0). cbn [wellTyped alen]. split; [lia|]. split; [lia|]. split; [reflexivity|].
    split; [reflexivity|]. split; [|reflexivity]. cbn. specialize (HI 1 1). lia.
Qed.

Lemma typed_cells pl e (w : Z -> elem e) s : goSlice pl s ->
  (typedSlice pl e w s <-> forall i, ours s i = true -> wellTyped pl e (w i)).
Proof.
  intro Hs. unfold typedSlice, contents, ours. rewrite Forall_forall. split.
  - intros [_ H] i Hi. apply H. apply in_map_iff. exists (Z.to_nat (i - off s)). split; [f_equal; lia|]. apply in_seq. lia.
  - intro H. split; [exact Hs|]. intros x Hx. apply in_map_iff in Hx. destruct Hx as (j & <- & Hj). apply in_seq in Hj. apply H. lia.
Qed.

Theorem may_run_on pl tn opt e s m0 M : platOk pl -> tuningOk pl tn -> typedSlice pl e m0 s -> 0 <= M ->
  (if cFC (typedCall pl tn opt e s m0) then maxLenInsFC tn else maxLenIns tn) < len s ->
  forall n, exists st, disturbed (typedCall pl tn opt e s m0) M n st /\ typedSlice pl e (mem (sh st)) s.
Proof.
  intros Hpl Htn Hty HM Hlen n. assert (Hgo := proj1 Hty). assert (Hb := proj2 Hgo). rewrite (intSize_eq pl) in Hb.
  destruct (two_values pl e Hpl) as (hi & lo & Hhi & Hlo & Hne & H1 & H2 & H3).
  assert (T1 := tuning_ins (kindOf pl e) tn Htn). assert (T2 := tuning_rec (kindOf pl e) tn Htn). assert (T3 := tuning_rec2 (kindOf pl e) tn Htn).
  assert (T0 : 9 <= TypedShort.maxIns (kindOf pl e) tn < len s) by (split; [exact T1|destruct e; exact Hlen]).
  assert (HS : forall m, may (procs pl tn e) (ours s) (wellTyped pl e) m (sort (Wd := pword pl) (kindOf pl e) tn (mI pl) s) (fun _ _ => False)).
  { intro m. apply (swing_sort (Wd := pword pl) (kindOf pl e) tn s hi lo); assumption. }
  destruct (may_exec (procs pl tn e) (ours s) (wellTyped pl e) M n (sortProg pl tn opt e s) (Sh m0 0 0 0)) as (st & He & Hg).
  - unfold sortProg, sortLive. destruct (isFloat e); [|apply HS]. apply may_bind.
    apply (swing_prepass (kindOf pl e) tn s hi); try assumption; try lia. intros m _. apply HS.
  - reflexivity.
  - exact HM.
  - apply (typed_cells pl e m0 s Hgo). exact Hty.
  - exists st. split; [exists 0; split; [lia|exact He]|]. apply (typed_cells pl e _ s Hgo). exact Hg.
Qed.
