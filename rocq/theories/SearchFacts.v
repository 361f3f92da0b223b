(** * Search: which questions it asks and what it answers *)

From Coq Require Import List ZArith Lia Bool.
From Verif Require Import Lang Scalar ScalarFacts Typed Kinds Spec.
Import ListNotations.
Open Scope Z_scope.
Local Arguments Z.mul : simpl never.
Local Arguments Z.add : simpl never.
Local Arguments Z.sub : simpl never.
Local Arguments Z.pow : simpl never.


(** An execution together with the cells its caller accesses, in order.  For Search these
    are the arguments fn is called with. *)
Inductive asks {P T R} (body : P -> cmd P T unit) (M : Z) (Rg : Z -> Prop)
  : nat -> list Z -> st P T R -> st P T R -> Prop :=
| asks_refl s : asks body M Rg 0 [] s s
| asks_prog n qs s s1 s2 : asks body M Rg n qs s s1 -> pstep body s1 s2 ->
    asks body M Rg (S n) (qs ++ match access (main s1) with Some (i, _) => [i] | None => [] end) s s2
| asks_env n qs s s1 s2 : asks body M Rg n qs s s1 -> estep M Rg s1 s2 -> asks body M Rg n qs s s2.

Lemma asks_exec {P T R} (body : P -> cmd P T unit) M (Rg : Z -> Prop) k (s s' : st P T R) :
  exec body M Rg k s s' <-> exists qs, asks body M Rg k qs s s'.
Proof.
  split.
  - induction 1.
    + exists []. constructor.
    + destruct IHexec as [qs H1]. eexists. eapply asks_prog; eauto.
    + destruct IHexec as [qs H1]. exists qs. eapply asks_env; eauto.
  - intros [qs H]. induction H; [constructor|eapply exec_prog; eauto|eapply exec_env; eauto].
Qed.

Section Search.
Context {Wd : word}.
Context {P : Type}.
Variable body : P -> cmd P bool unit.
Variables (M : Z) (Rg : Z -> Prop) (meanI : Z -> Z -> Z) (n : Z).
Hypothesis Hmean : forall x y, 0 <= x -> x < y -> y < 2 * wq -> x <= meanI x y < y.
Hypothesis Hn : n < 2 * wq.
Variable fl : Prop.
Hypothesis Hfl : fl -> forall x y, 0 <= x -> x < y -> y < 2 * wq -> x + y - 1 <= 2 * meanI x y <= x + y.

Notation state := (st P bool Z).

Definition sbody (p : Z * Z) : cmd P bool (Z * Z + Z) :=
  (let '(l, h) := p in
   if l <? h then
     let m := meanI l h in
     Read m (fun b => if b : bool then goto (l, m) else goto (m + 1, h))
   else done l)%cmd.

Definition scont (r : Z * Z + Z) : cmd P bool Z :=
  match r with inl s' => Loop s' sbody | inr a => Ret a end.

(** The three shapes of the running program. *)
Inductive shape (l h k q : Z) (c : cmd P bool Z) : Prop :=
| at_head : view c = HTau (Bind (sbody (l, h)) scont) -> k = 2 * q -> shape l h k q c
| at_ask : l < h -> c = Bind (sbody (l, h)) scont -> k = 2 * q + 1 -> shape l h k q c
| at_end : h <= l -> view c = HRet l -> k = 2 * q + 1 -> shape l h k q c.

Definition SInv (f0 : Z -> bool) (k : Z) (s : state) (qs : list Z) : Prop :=
  exists l h, let q := Z.of_nat (length qs) in
    shape l h k q (main s) /\ 0 <= l <= h /\ h <= Z.max 0 n /\ thr s = [] /\
    Forall (fun i => 0 <= i < n) qs /\
    (forall i, Rg i -> mem (sh s) i = f0 i) /\
    (Rg (l - 1) -> 0 < l -> f0 (l - 1) = false) /\ (Rg h -> h < n -> f0 h = true) /\
    q + (h - l) <= Z.max 0 n /\
    (fl -> (0 < q -> q <= Z.log2 n + 1) /\ (h - l) * 2 ^ q <= Z.max 0 n).

Lemma sinv_init f0 mg0 : SInv f0 0 (start (search meanI n) f0 mg0) [].
Proof.
  exists 0, (Z.max 0 n). unfold start. cbn [main thr sh mem length Z.of_nat].
  split; [|repeat split; auto; try lia].
  apply at_head; [|reflexivity].
  destruct (Z.leb_spec n 0) as [C|C].
  - replace (Z.max 0 n) with 0 by lia. unfold search. cbn [view]. f_equal.
    change (Bind (sbody (0, n)) scont = Bind (sbody (0, 0)) scont). f_equal. unfold sbody.
    destruct (Z.ltb_spec 0 n); [lia|]. reflexivity.
  - replace (Z.max 0 n) with n by lia. reflexivity.
Qed.

Lemma pstep_alone {A} (s s' : st P bool A) : pstep body s s' -> thr s = [] ->
  (forall k, view (main s) <> HLoadGor k) ->
  exists c' sh' fs, exec_local body (main s) (sh s) = Some (c', sh', fs) /\ s' = St c' fs sh'.
Proof.
  intros H Ht Hl. destruct H as [s s' H|m ts s k z Hz|]; [destruct H| |];
    cbn [main thr sh] in *; subst; try (destruct l1; discriminate); [eauto 10|].
  destruct (Hl k Hz).
Qed.

Lemma shape_noload l h k q c : shape l h k q c -> forall k0, view c <> HLoadGor k0.
Proof.
  intros [Hv _|Hlt Hc _|_ Hv _] k0; [congruence| |congruence].
  rewrite Hc. unfold sbody. destruct (Z.ltb_spec l h); [discriminate|lia].
Qed.

Lemma sinv_step f0 k s s' qs : pstep body s s' -> SInv f0 k s qs ->
  SInv f0 (k + 1) s' (qs ++ match access (main s) with Some (i, _) => [i] | None => [] end).
Proof.
  intros Hs (l & h & HSh & Hl & Hh & Ht & Hq & Hm & Hlo & Hhi & Hd & Hf).
  destruct (pstep_alone _ _ Hs Ht (shape_noload _ _ _ _ _ HSh)) as (c' & sh' & fs & He & ->). clear Hs Ht.
  unfold exec_local in He.
  destruct HSh as [Hv Hk|Hlt Hc Hk|Hge Hv Hk].
  - rewrite Hv in He. inversion He; subst. unfold access. rewrite Hv. rewrite app_nil_r.
    exists l, h. cbn [main thr sh]. split; [|auto 12].
    destruct (Z.ltb_spec l h) as [C|C].
    + apply at_ask; [exact C| |lia]. unfold sbody. destruct (Z.ltb_spec l h); [reflexivity|lia].
    + apply at_end; [exact C|reflexivity|lia].
  - rewrite Hc in *. 
    assert (Hv : view (Bind (sbody (l, h)) scont) =
       HRead (meanI l h) (fun b => Bind (if b : bool then Ret (inl (l, meanI l h)) else Ret (inl (meanI l h + 1, h))) scont)).
    { unfold sbody. destruct (Z.ltb_spec l h); [|lia]. reflexivity. }
    rewrite Hv in He. inversion He; subst. unfold access. rewrite Hv. clear He Hc.
    assert (Hmm := Hmean l h ltac:(lia) Hlt ltac:(lia)).
    assert (El : Z.of_nat (length (qs ++ [meanI l h])) = Z.of_nat (length qs) + 1) by (rewrite app_length; simpl; lia).
    set (q := Z.of_nat (length qs)) in *. set (m := meanI l h) in *.
    assert (Hfm : fl -> (q + 1 <= Z.log2 n + 1) /\ (m - l) * 2 ^ (q + 1) <= Z.max 0 n /\ (h - (m + 1)) * 2 ^ (q + 1) <= Z.max 0 n).
    { intro F. destruct (Hf F) as [F1 F2]. assert (F3 := Hfl F l h ltac:(lia) Hlt ltac:(lia)). fold m in F3.
      assert (Hq0 : 0 <= q) by lia. assert (Hp : 0 < 2 ^ q) by (apply Z.pow_pos_nonneg; lia).
      rewrite Z.pow_add_r by lia. change (2 ^ 1) with 2. split.
      - assert (2 ^ q <= n) by nia. apply Z.log2_le_pow2 in H; lia.
      - split; nia. }
    assert (Hqs : Forall (fun i => 0 <= i < n) (qs ++ [m])).
    { apply Forall_app. split; [exact Hq|]. constructor; [lia|constructor]. }
    assert (E := Hm m). destruct (mem (sh s) m) eqn:Em.
    + exists l, m. cbn [main thr sh]. rewrite El.
      split; [apply at_head; [reflexivity|lia]|].
      repeat (split; [solve [auto|lia|intros; rewrite <- E by assumption; reflexivity]|]). 
      intro F. destruct (Hfm F) as (? & ? & ?). split; [auto|assumption].
    + exists (m + 1), h. cbn [main thr sh]. rewrite El. replace (m + 1 - 1) with m by lia.
      split; [apply at_head; [reflexivity|lia]|].
      repeat (split; [solve [auto|lia|intros; rewrite <- E by assumption; reflexivity]|]).
      intro F. destruct (Hfm F) as (? & ? & ?). split; [auto|assumption].
  - rewrite Hv in He. discriminate.
Qed.

Lemma sinv_reach f0 mg0 k qs s : asks body M Rg k qs (start (search meanI n) f0 mg0) s ->
  SInv f0 (Z.of_nat k) s qs.
Proof.
  intro H. remember (start (search meanI n) f0 mg0) as s0 eqn:E. induction H; subst.
  - apply sinv_init.
  - replace (Z.of_nat (S n0)) with (Z.of_nat n0 + 1) by lia. eapply sinv_step; eauto.
  - destruct (IHasks eq_refl) as (l & h & HSh & Hl & Hh & Ht & Hq & Hm & Hrest).
    inversion H0; subst. exists l, h. cbn [main thr sh mem] in *.
    split; [exact HSh|]. split; [exact Hl|]. split; [exact Hh|]. split; [exact Ht|]. split; [exact Hq|].
    split; [|exact Hrest]. intros i Hi. rewrite H2 by exact Hi. auto.
Qed.

(** Questions asked, steps taken. *)
Lemma search_safe f0 mg0 k qs s : asks body M Rg k qs (start (search meanI n) f0 mg0) s ->
  Forall (fun i => 0 <= i < n) qs /\ Z.of_nat k <= 2 * Z.of_nat (length qs) + 1 /\
  Z.of_nat (length qs) <= Z.max 0 n /\ thr s = [] /\ ~ panicked s /\
  (fl -> Z.of_nat (length qs) <= if n <=? 0 then 0 else Z.log2 n + 1) /\
  ((exists r, returned s r) \/ exists s', pstep body s s').
Proof.
  intro H. destruct (sinv_reach _ _ _ _ _ H) as (l & h & HSh & Hl & Hh & Ht & Hq & Hm & Hlo & Hhi & Hd & Hf).
  split; [exact Hq|]. split; [destruct HSh; lia|]. split; [lia|]. split; [exact Ht|]. split; [|split].
  - intros [Hp|(c & Hin & _)]; [|rewrite Ht in Hin; contradiction].
    destruct HSh as [Hv _|Hlt Hc _|_ Hv _]; [congruence| |congruence].
    rewrite Hc in Hp. unfold sbody in Hp. destruct (Z.ltb_spec l h); [discriminate Hp|lia].
  - intro F. destruct (Hf F) as [F1 F2]. destruct (Z.leb_spec n 0); [lia|].
    destruct (Z.eq_dec (Z.of_nat (length qs)) 0) as [E|]; [|apply F1; lia].
    assert (0 <= Z.log2 n) by apply Z.log2_nonneg. lia.
  - destruct s as [m ts sh0]. simpl in *. subst ts.
    destruct HSh as [Hv _|Hlt Hc _|_ Hv _].
    + right. eexists. apply step_now, step_main. unfold exec_local. rewrite Hv. reflexivity.
    + right. eexists. apply step_now, step_main. unfold exec_local. rewrite Hc. unfold sbody.
      destruct (Z.ltb_spec l h); [|lia]. reflexivity.
    + left. eexists. exact Hv.
Qed.

(** The answer: a boundary of the answers of fn on protected cells. *)
Lemma search_answer f0 mg0 k qs s r : asks body M Rg k qs (start (search meanI n) f0 mg0) s -> returned s r ->
  0 <= r <= Z.max 0 n /\ (Rg (r - 1) -> 0 < r -> f0 (r - 1) = false) /\ (Rg r -> r < n -> f0 r = true).
Proof.
  intros H Hr. destruct (sinv_reach _ _ _ _ _ H) as (l & h & HSh & Hl & Hh & Ht & Hq & Hm & Hlo & Hhi & Hd & Hf).
  unfold returned in Hr. destruct HSh as [Hv _|Hlt Hc _|Hge Hv _]; [congruence| |].
  - rewrite Hc in Hr. unfold sbody in Hr. destruct (Z.ltb_spec l h); [discriminate Hr|lia].
  - assert (E : r = l) by congruence. subst. replace h with l in * by lia. auto with zarith.
Qed.

End Search.
