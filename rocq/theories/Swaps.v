(** * Sort(n, lsw) only ever exchanges elements

    A program is [tidy] if its writes come in pairs: it reads a cell [s], then a cell [r],
    and then writes the two values back exchanged, with nothing in between.  The threads of
    a tidy call that has no data races keep, at any time and up to exchanges that are half
    done, a permutation of the original elements in memory. *)

From Coq Require Import List ZArith Lia Bool Permutation.
From Coq Require Import Arith.Wf_nat.
From Verif Require Import Lang SeqLogic Base Scalar Typed Spec Lsw.
Import ListNotations.
Open Scope Z_scope.

Section Tidy.
Context {P T : Type}.
Variable body : P -> cmd P T unit.

Fixpoint tidy (m : nat) {A : Type} (c : cmd P T A) {struct m} : Prop :=
  match m with
  | O => True
  | S m' =>
    match view c with
    | HRet _ | HPanic => True
    | HTau c' => tidy m' c'
    | HRead s k =>
        (forall x, tidy m' (k x)) \/
        (exists r, s <> r /\ forall a, exists k1, view (k a) = HRead r k1 /\
           forall b, exists k2 k3, view (k1 b) = HWrite r a k2 /\ view k2 = HWrite s b k3 /\ tidy m' k3)
    | HWrite _ _ _ => False
    | HCall p k => tidy m' (k (body p))
    | HFork p k => tidy m' (body p) /\ tidy m' k
    | HLoadMax k | HLoadGor k | HRecv k => forall z, tidy m' (k z)
    | HAddGor _ k => forall z, tidy m' (k z)
    | HMakeSv k | HSend _ k => tidy m' k
    end
  end.

Lemma tidy_down m : forall {A} (c : cmd P T A), tidy (S m) c -> tidy m c.
Proof.
  induction m as [|m IH]; intros A c H; [exact I|].
  remember (S m) as m1 eqn:E1. cbn [tidy] in H. rewrite E1. cbn [tidy]. subst m1.
  destruct (view c); auto.
  - destruct H as [H|(r & Hr & H)]; [left; auto|right]. exists r. split; [exact Hr|]. intro a.
    destruct (H a) as (k1 & E & H1). exists k1. split; [exact E|]. intro b.
    destruct (H1 b) as (k2 & k3 & E2 & E3 & H3). exists k2, k3. auto.
  - destruct H; auto.
Qed.

Lemma tidy_le m m' {A} (c : cmd P T A) : (m' <= m)%nat -> tidy m c -> tidy m' c.
Proof. induction 1; auto. intro H1. apply IHle, tidy_down. exact H1. Qed.

Lemma tidy_ctx m : forall {A B} (ctx : cmd P T B -> cmd P T A) c,
  (forall c, match view c with HRet _ => True | h => view (ctx c) = hcont ctx h end) ->
  (forall b c m', (S m' <= m)%nat -> view c = HRet b -> tidy (S m') (ctx c)) ->
  tidy m c -> tidy m (ctx c).
Proof.
  induction m as [|m IH]; intros A B ctx c HC HR H; [exact I|].
  assert (IHc : forall c, tidy m c -> tidy m (ctx c)) by (intros c1 H1; apply IH; [exact HC| |exact H1]; intros b c2 m' Hm Hv; eapply HR; [lia|exact Hv]).
  assert (HCc := HC c). cbn [tidy] in H. destruct (view c) eqn:Ev.
  - eapply HR; eauto.
  - cbn [tidy]. rewrite HCc. exact I.
  - cbn [tidy]. rewrite HCc. cbn [hcont]. auto.
  - cbn [tidy]. rewrite HCc. cbn [hcont]. destruct H as [H|(r & Hr & H)]; [left; auto|right].
    exists r. split; [exact Hr|]. intro a. destruct (H a) as (k1 & E & H1).
    exists (fun b => ctx (k1 b)). assert (H0 := HC (k a)). rewrite E in H0. split; [exact H0|]. intro b.
    destruct (H1 b) as (k2 & k3 & E2 & E3 & H3). exists (ctx k2), (ctx k3).
    assert (H2 := HC (k1 b)). rewrite E2 in H2. assert (H4 := HC k2). rewrite E3 in H4. auto.
  - contradiction.
  - cbn [tidy]. rewrite HCc. cbn [hcont]. auto.
  - cbn [tidy]. rewrite HCc. cbn [hcont]. destruct H; auto.
  - cbn [tidy]. rewrite HCc. cbn [hcont]. auto.
  - cbn [tidy]. rewrite HCc. cbn [hcont]. auto.
  - cbn [tidy]. rewrite HCc. cbn [hcont]. auto.
  - cbn [tidy]. rewrite HCc. cbn [hcont]. auto.
  - cbn [tidy]. rewrite HCc. cbn [hcont]. auto.
  - cbn [tidy]. rewrite HCc. cbn [hcont]. auto.
Qed.

Lemma tidy_head m {A} (c c' : cmd P T A) : view c = view c' -> tidy m c' -> tidy m c.
Proof. intros E H. destruct m; [exact I|]. cbn [tidy] in *. rewrite E. exact H. Qed.

Lemma tidy_ret m {A} (a : A) : tidy m (Ret a : cmd P T A).
Proof. destruct m; exact I. Qed.

Lemma tidy_panic m {A} : tidy m (Panic : cmd P T A).
Proof. destruct m; exact I. Qed.

Lemma tidy_bind m {A B} (c : cmd P T B) (k : B -> cmd P T A) :
  tidy m c -> (forall b m', (m' <= m)%nat -> tidy m' (k b)) -> tidy m (Bind c k).
Proof.
  intros H HK. apply (tidy_ctx m (fun c => Bind c k)); [| |exact H].
  - intro c0. cbn [view]. destruct (view c0); reflexivity || exact I.
  - intros b c0 m' Hm Hv. apply (tidy_head _ _ (k b)); [cbn [view]; rewrite Hv; reflexivity|]. apply HK. exact Hm.
Qed.

Lemma tidy_incall m {A} (c : cmd P T unit) (k : cmd P T A) :
  tidy m c -> (forall m', (m' < m)%nat -> tidy m' k) -> tidy m (InCall c k).
Proof.
  intros H HK. apply (tidy_ctx m (fun c => InCall c k)); [| |exact H].
  - intro c0. cbn [view]. destruct (view c0); reflexivity || exact I.
  - intros b c0 m' Hm Hv. cbn [tidy view]. rewrite Hv. apply HK. lia.
Qed.

Lemma tidy_call m {A} p (k : cmd P T A) :
  (forall m', (m' < m)%nat -> tidy m' (body p)) -> (forall m', (m' < m)%nat -> tidy m' k) -> tidy m (Call p k).
Proof.
  intros HB HK. destruct m as [|m]; [exact I|]. cbn [tidy view]. apply tidy_incall; [apply HB; lia|].
  intros m' Hm. apply HK. lia.
Qed.

Lemma tidy_loop m {A S} (bd : S -> cmd P T (S + A)) :
  (forall s m', (m' < m)%nat -> tidy m' (bd s)) -> forall s, tidy m (Loop s bd).
Proof.
  induction m as [|m IH]; intros HB s; [exact I|]. cbn [tidy view].
  apply tidy_bind; [apply HB; lia|]. intros [s'|a] m' Hm; [|apply tidy_ret].
  apply (tidy_le m); [exact Hm|]. apply IH. intros s0 m0 Hm0. apply HB. lia.
Qed.

Lemma tidy_read m {A} i (k : T -> cmd P T A) : (forall x m', (m' < m)%nat -> tidy m' (k x)) -> tidy m (Read i k).
Proof. intro H. destruct m; [exact I|]. cbn [tidy view]. left. intro x. apply H. lia. Qed.

Lemma tidy_exchange m {A} s r (k : cmd P T A) : s <> r -> (forall m', (m' < m)%nat -> tidy m' k) ->
  tidy m (Bind (Read s Ret) (fun a => Bind (Read r Ret) (fun b =>
            Bind (Write r a (Ret tt)) (fun _ => Bind (Write s b (Ret tt)) (fun _ => k))))).
Proof.
  intros Hn H. destruct m; [exact I|]. cbn [tidy view hcont]. right. exists r. split; [exact Hn|].
  intro a. eexists. split; [reflexivity|]. intro b. eexists _, _. split; [reflexivity|]. split; [reflexivity|].
  apply (tidy_head _ _ k); [reflexivity|]. apply H. lia.
Qed.

Lemma tidy_fork m {A} p (k : cmd P T A) :
  (forall m', (m' < m)%nat -> tidy m' (body p)) -> (forall m', (m' < m)%nat -> tidy m' k) -> tidy m (Fork p k).
Proof. intros H1 H2. destruct m; [exact I|]. cbn [tidy view]. split; [apply H1|apply H2]; lia. Qed.

Lemma tidy_loadmax m {A} (k : Z -> cmd P T A) : (forall z m', (m' < m)%nat -> tidy m' (k z)) -> tidy m (LoadMax k).
Proof. intros H. destruct m; [exact I|]. cbn [tidy view]. intro z. apply H; lia. Qed.
Lemma tidy_loadgor m {A} (k : Z -> cmd P T A) : (forall z m', (m' < m)%nat -> tidy m' (k z)) -> tidy m (LoadGor k).
Proof. intros H. destruct m; [exact I|]. cbn [tidy view]. intro z. apply H; lia. Qed.
Lemma tidy_addgor m {A} d (k : Z -> cmd P T A) : (forall z m', (m' < m)%nat -> tidy m' (k z)) -> tidy m (AddGor d k).
Proof. intros H. destruct m; [exact I|]. cbn [tidy view]. intro z. apply H; lia. Qed.
Lemma tidy_recv m {A} (k : Z -> cmd P T A) : (forall z m', (m' < m)%nat -> tidy m' (k z)) -> tidy m (Recv k).
Proof. intros H. destruct m; [exact I|]. cbn [tidy view]. intro z. apply H; lia. Qed.
Lemma tidy_makesv m {A} (k : cmd P T A) : (forall m', (m' < m)%nat -> tidy m' k) -> tidy m (MakeSv k).
Proof. intros H. destruct m; [exact I|]. cbn [tidy view]. apply H; lia. Qed.
Lemma tidy_send m {A} v (k : cmd P T A) : (forall m', (m' < m)%nat -> tidy m' k) -> tidy m (Send v k).
Proof. intros H. destruct m; [exact I|]. cbn [tidy view]. apply H; lia. Qed.

(** ** Steps, by index of the goroutine *)

Definition gors (s : st P T unit) : list (cmd P T unit) := main s :: thr s.

Inductive change : shared T -> list (cmd P T unit) -> shared T -> list (cmd P T unit) -> Prop :=
| ch_local l i c c' h h' fs : nth_error l i = Some c -> exec_local body c h = Some (c', h', fs) ->
    change h l h' (lupd l i c' ++ fs)
| ch_stale l i c k z h : nth_error l i = Some c -> view c = HLoadGor k -> change h l h (lupd l i (k z))
| ch_comm l i j c1 c2 v k k' h : i <> j -> nth_error l i = Some c1 -> nth_error l j = Some c2 ->
    view c1 = HSend v k -> view c2 = HRecv k' -> change h l h (lupd (lupd l i k) j (k' v)).

Lemma lupd_mid {U} (l1 : list U) x y l2 : lupd (l1 ++ x :: l2) (length l1) y = l1 ++ y :: l2.
Proof. induction l1 as [|z l1 IH]; cbn; [reflexivity|]. rewrite IH. reflexivity. Qed.

Lemma nth_mid {U} (l1 : list U) x l2 : nth_error (l1 ++ x :: l2) (length l1) = Some x.
Proof. rewrite nth_error_app2 by lia. rewrite Nat.sub_diag. reflexivity. Qed.

Lemma istep_change s s' : istep body s s' -> change (sh s) (gors s) (sh s') (gors s').
Proof.
  destruct 1; unfold gors; cbn [main thr sh].
  - exact (ch_local (m :: ts) O m m' s s' fs eq_refl H).
  - replace (m :: l1 ++ c' :: l2 ++ fs) with (lupd (m :: l1 ++ c :: l2) (S (length l1)) c' ++ fs).
    + apply (ch_local _ _ c); [apply (nth_mid (m :: l1))|exact H].
    + cbn [lupd]. rewrite lupd_mid. cbn. rewrite <- app_assoc. reflexivity.
  - replace (k' v :: l1 ++ k :: l2) with (lupd (lupd (m :: l1 ++ c :: l2) (S (length l1)) k) O (k' v)).
    + apply (ch_comm _ _ _ c m); [lia|apply (nth_mid (m :: l1))|reflexivity|assumption|assumption].
    + cbn [lupd]. rewrite lupd_mid. reflexivity.
  - replace (k :: l1 ++ k' v :: l2) with (lupd (lupd (m :: l1 ++ c :: l2) O k) (S (length l1)) (k' v)).
    + apply (ch_comm _ _ _ m c); [lia|reflexivity|apply (nth_mid (m :: l1))|assumption|assumption].
    + cbn [lupd]. rewrite lupd_mid. reflexivity.
  - replace (m :: l1 ++ k :: l2 ++ k' v :: l3) with
      (lupd (lupd (m :: l1 ++ c1 :: l2 ++ c2 :: l3) (S (length l1)) k) (S (length (l1 ++ k :: l2))) (k' v)).
    + apply (ch_comm _ _ _ c1 c2); [rewrite app_length; cbn; lia|apply (nth_mid (m :: l1))| |assumption|assumption].
      replace (length (l1 ++ k :: l2)) with (length (l1 ++ c1 :: l2)) by (rewrite !app_length; reflexivity).
      replace (m :: l1 ++ c1 :: l2 ++ c2 :: l3) with ((m :: l1 ++ c1 :: l2) ++ c2 :: l3)
        by (cbn; rewrite <- app_assoc; reflexivity). apply (nth_mid (m :: l1 ++ c1 :: l2)).
    + cbn [lupd]. rewrite lupd_mid.
      replace (l1 ++ k :: l2 ++ c2 :: l3) with ((l1 ++ k :: l2) ++ c2 :: l3) by (rewrite <- app_assoc; reflexivity).
      rewrite lupd_mid, <- app_assoc. reflexivity.
  - replace (m :: l1 ++ k' v :: l2 ++ k :: l3) with
      (lupd (lupd (m :: l1 ++ c1 :: l2 ++ c2 :: l3) (S (length (l1 ++ c1 :: l2))) k) (S (length l1)) (k' v)).
    + apply (ch_comm _ _ _ c2 c1); [rewrite app_length; cbn; lia| |apply (nth_mid (m :: l1))|assumption|assumption].
      replace (m :: l1 ++ c1 :: l2 ++ c2 :: l3) with ((m :: l1 ++ c1 :: l2) ++ c2 :: l3)
        by (cbn; rewrite <- app_assoc; reflexivity). apply (nth_mid (m :: l1 ++ c1 :: l2)).
    + cbn [lupd].
      replace (l1 ++ c1 :: l2 ++ c2 :: l3) with ((l1 ++ c1 :: l2) ++ c2 :: l3) by (rewrite <- app_assoc; reflexivity).
      rewrite lupd_mid, <- app_assoc. cbn [app]. rewrite lupd_mid. reflexivity.
Qed.

Lemma pstep_change s s' : pstep body s s' -> change (sh s) (gors s) (sh s') (gors s').
Proof.
  destruct 1 as [s s' H|m ts s k z H|m l1 c l2 s k z H]; [apply istep_change; exact H| |]; unfold gors; cbn [main thr sh].
  - exact (ch_stale (m :: ts) O m k z s eq_refl H).
  - replace (m :: l1 ++ k z :: l2) with (lupd (m :: l1 ++ c :: l2) (S (length l1)) (k z)).
    + apply (ch_stale _ _ c); [apply (nth_mid (m :: l1))|exact H].
    + cbn [lupd]. rewrite lupd_mid. reflexivity.
Qed.

Lemma step_at s i c c' h' fs : nth_error (gors s) i = Some c -> exec_local body c (sh s) = Some (c', h', fs) ->
  exists s', pstep body s s' /\ sh s' = h' /\ gors s' = lupd (gors s) i c' ++ fs.
Proof.
  destruct s as [m ts h]. unfold gors. cbn [main thr sh]. intros Hi Hx. destruct i as [|i].
  - cbn in Hi. inversion Hi; subst m. eexists. split; [apply step_now, step_main; exact Hx|]. cbn. auto.
  - cbn in Hi. apply nth_error_split in Hi. destruct Hi as (l1 & l2 & -> & <-).
    eexists. split; [apply step_now, step_thr; exact Hx|]. cbn [main thr sh lupd]. split; [reflexivity|].
    rewrite lupd_mid. cbn. rewrite <- app_assoc. reflexivity.
Qed.

End Tidy.

Section Keep.
Context {P T : Type}.
Variable body : P -> cmd P T unit.
Variables (M : Z) (sl : slice) (s0 : st P T unit).
Notation ex := (exec body M (cellsOf sl)).
Notation gors := (@gors P T).
Hypothesis Hrace : forall k s, ex k s0 s -> ~ race s.
Hypothesis Hin : forall k s x w, ex k s0 s -> In (Some (x, w)) (accesses s) -> cellsOf sl x.

Lemma accesses_gors s : accesses s = map access (gors s).
Proof. reflexivity. Qed.

Lemma apart_now k s i j ci cj x wi wj : ex k s0 s -> i <> j -> nth_error (gors s) i = Some ci ->
  nth_error (gors s) j = Some cj -> access ci = Some (x, wi) -> access cj = Some (x, wj) ->
  wi = true \/ wj = true -> False.
Proof.
  intros He Hij Hi Hj Ai Aj Hw. apply (Hrace k s He). exists i, j, x, wi, wj. split; [exact Hij|].
  rewrite accesses_gors. rewrite !nth_error_map, Hi, Hj. cbn. rewrite Ai, Aj. auto.
Qed.

(** A goroutine that will write cell [x] after nothing but accesses to memory. *)
Inductive owes (c : cmd P T unit) (x : Z) : Prop :=
| owes_now b k : view c = HWrite x b k -> owes c x
| owes_next r a k2 b k3 : view c = HWrite r a k2 -> view k2 = HWrite x b k3 -> owes c x
| owes_read r k1 : view c = HRead r k1 ->
    (forall b, exists a k2 k3, view (k1 b) = HWrite r a k2 /\ view k2 = HWrite x b k3) -> owes c x.

Lemma owes_drive k s i c x : ex k s0 s -> nth_error (gors s) i = Some c -> owes c x ->
  exists k' s' c', ex k' s0 s' /\ nth_error (gors s') i = Some c' /\ access c' = Some (x, true) /\
    forall j, j <> i -> nth_error (gors s) j <> None -> nth_error (gors s') j = nth_error (gors s) j.
Proof.
  assert (One : forall k s c c' h', ex k s0 s -> nth_error (gors s) i = Some c ->
    exec_local body c (sh s) = Some (c', h', []) -> exists s', ex (S k) s0 s' /\ nth_error (gors s') i = Some c' /\
    forall j, j <> i -> nth_error (gors s) j <> None -> nth_error (gors s') j = nth_error (gors s) j).
  { intros k1 s1 c1 c1' h1 He Hi Hx. destruct (step_at body s1 i c1 c1' h1 [] Hi Hx) as (s' & Hs & _ & Hg).
    exists s'. split; [eapply exec_prog; eauto|]. rewrite Hg, app_nil_r. split.
    - rewrite nth_error_lupd, Nat.eqb_refl.
      assert (L : (i < length (gors s1))%nat) by (apply nth_error_Some; congruence).
      apply Nat.ltb_lt in L. rewrite L. reflexivity.
    - intros j Hj _. rewrite nth_error_lupd. destruct (Nat.eqb_spec j i); [contradiction|reflexivity]. }
  intros He Hi [b k0 Hv|r a k2 b k3 Hv Hv2|r k1 Hv H].
  - exists k, s, c. split; [exact He|]. split; [exact Hi|]. split; [unfold access; rewrite Hv; reflexivity|auto].
  - destruct (One k s c k2 _ He Hi ltac:(unfold exec_local; rewrite Hv; reflexivity)) as (s' & He' & Hi' & Ho).
    exists (S k), s', k2. split; [exact He'|]. split; [exact Hi'|]. split; [unfold access; rewrite Hv2; reflexivity|auto].
  - destruct (One k s c _ _ He Hi ltac:(unfold exec_local; rewrite Hv; reflexivity)) as (s' & He' & Hi' & Ho).
    destruct (H (mem (sh s) r)) as (a & k2 & k3 & E1 & E2).
    destruct (One _ s' _ k2 _ He' Hi' ltac:(unfold exec_local; rewrite E1; reflexivity)) as (s2 & He2 & Hi2 & Ho2).
    exists (S (S k)), s2, k2. split; [exact He2|]. split; [exact Hi2|]. split; [unfold access; rewrite E2; reflexivity|].
    intros j Hj Hn. rewrite Ho2; [apply Ho; auto|exact Hj|]. rewrite Ho; auto.
Qed.

Lemma owes_apart k s i j ci cj x w : ex k s0 s -> i <> j -> nth_error (gors s) i = Some ci ->
  nth_error (gors s) j = Some cj -> owes ci x -> access cj = Some (x, w) -> False.
Proof.
  intros He Hij Hi Hj Ho Ha. destruct (owes_drive k s i ci x He Hi Ho) as (k' & s' & c' & He' & Hi' & Ha' & Hr).
  eapply (apart_now k' s' i j c' cj x true w); eauto. rewrite Hr; [exact Hj|auto|congruence].
Qed.

Lemma owes_cell k s i c x : ex k s0 s -> nth_error (gors s) i = Some c -> owes c x -> cellsOf sl x.
Proof.
  intros He Hi Ho. destruct (owes_drive k s i c x He Hi Ho) as (k' & s' & c' & He' & Hi' & Ha & _).
  apply (Hin k' s' x true He'). rewrite accesses_gors, <- Ha. apply in_map. eapply nth_error_In; exact Hi'.
Qed.

(** Where a goroutine is: not exchanging anything; about to read the second cell, having
    read the first; about to write the first; about to write the second. *)
Inductive cls (m : nat) (w : Z -> T) (c : cmd P T unit) : Prop :=
| cls_idle : tidy body m c -> cls m w c
| cls_read x r k1 : x <> r -> view c = HRead r k1 ->
    (forall b, exists k2 k3, view (k1 b) = HWrite r (w x) k2 /\ view k2 = HWrite x b k3 /\ tidy body m k3) -> cls m w c
| cls_first x r k2 k3 : x <> r -> view c = HWrite r (w x) k2 -> view k2 = HWrite x (w r) k3 -> tidy body m k3 -> cls m w c
| cls_second x b k3 : view c = HWrite x b k3 -> tidy body m k3 -> cls m w c.

(** The write that is missing to complete an exchange. *)
Definition pend (c : cmd P T unit) : option (Z * T) :=
  match view c with
  | HWrite x b k => match view k with HWrite _ _ _ => None | _ => Some (x, b) end
  | _ => None
  end.

Lemma tidy_pend m c : tidy body (S m) c -> pend c = None.
Proof. cbn [tidy]. unfold pend. destruct (view c); auto. intros []. Qed.

Lemma pend_access c x b : pend c = Some (x, b) -> access c = Some (x, true).
Proof.
  unfold pend, access. destruct (view c); try discriminate. destruct (view k); try discriminate; intro H; inversion H; reflexivity.
Qed.

Lemma cls_upd m w w' c : cls (S m) w c -> (forall x, owes c x -> w' x = w x) -> cls m w' c.
Proof.
  intros [H|x r k1 Hn Hv H|x r k2 k3 Hn Hv Hv2 H|x b k3 Hv H] Hw.
  - apply cls_idle, tidy_down, H.
  - assert (O : owes c x).
    { eapply owes_read; [exact Hv|]. intro b. destruct (H b) as (k2 & k3 & E1 & E2 & _). eauto. }
    apply (cls_read m w' c x r k1 Hn Hv). intro b. destruct (H b) as (k2 & k3 & E1 & E2 & H3).
    exists k2, k3. rewrite (Hw x O). split; [exact E1|]. split; [exact E2|]. apply tidy_down, H3.
  - assert (O1 : owes c x) by (eapply owes_next; eauto). assert (O2 : owes c r) by (eapply owes_now; eauto).
    apply (cls_first m w' c x r k2 k3 Hn); [rewrite (Hw x O1); exact Hv|rewrite (Hw r O2); exact Hv2|apply tidy_down, H].
  - apply (cls_second m w' c x b k3 Hv). apply tidy_down, H.
Qed.

(** Pending writes. *)
Definition pends (l : list (cmd P T unit)) (p : Z * T) : Prop := exists c, In c l /\ pend c = Some p.
Definition others (l : list (cmd P T unit)) (i : nat) (p : Z * T) : Prop :=
  exists j c, j <> i /\ nth_error l j = Some c /\ pend c = Some p.

Lemma pends_at l i c p : nth_error l i = Some c -> (pends l p <-> pend c = Some p \/ others l i p).
Proof.
  intro Hi. split.
  - intros (c' & Hc & Hp). apply In_nth_error in Hc. destruct Hc as [j Hj].
    destruct (Nat.eq_dec j i) as [->|E]; [left; congruence|right; exists j, c'; auto].
  - intros [Hp|(j & c' & _ & Hj & Hp)]; [exists c|exists c']; (split; [eapply nth_error_In; eauto|exact Hp]).
Qed.

Lemma pends_upd l i c c' fs p : nth_error l i = Some c ->
  (pends (lupd l i c' ++ fs) p <-> pend c' = Some p \/ others l i p \/ pends fs p).
Proof.
  intro Hi. assert (L : (i < length l)%nat) by (apply nth_error_Some; congruence).
  assert (L' := L). apply Nat.ltb_lt in L'. split.
  - intros (d & Hd & Hp). apply in_app_or in Hd. destruct Hd as [Hd|Hd]; [|right; right; exists d; auto].
    apply In_nth_error in Hd. destruct Hd as [j Hj]. rewrite nth_error_lupd in Hj.
    destruct (Nat.eqb_spec j i) as [E|E]; [rewrite L' in Hj; inversion Hj; subst; auto|].
    right; left. exists j, d. auto.
  - intros [Hp|[(j & d & E & Hj & Hp)|(d & Hd & Hp)]].
    + exists c'. split; [|exact Hp]. apply in_or_app. left. apply (nth_error_In _ i).
      rewrite nth_error_lupd, Nat.eqb_refl, L'. reflexivity.
    + exists d. split; [|exact Hp]. apply in_or_app. left. apply (nth_error_In _ j).
      rewrite nth_error_lupd. apply Nat.eqb_neq in E. rewrite E. exact Hj.
    + exists d. split; [apply in_or_app; auto|exact Hp].
Qed.

(** [v] is the memory [w] after the pending writes. *)
Definition pv (l : list (cmd P T unit)) (w v : Z -> T) : Prop :=
  (forall x b, pends l (x, b) -> v x = b) /\ (forall x, cellsOf sl x -> (forall b, ~ pends l (x, b)) -> v x = w x).

Variable m0 : Z -> T.
Definition INV (m : nat) (s : st P T unit) : Prop :=
  (forall i c, nth_error (gors s) i = Some c -> cls m (mem (sh s)) c) /\
  exists v, pv (gors s) (mem (sh s)) v /\ Permutation (contents v sl) (contents m0 sl).

Lemma pv_same l l' w v : (forall p, pends l p <-> pends l' p) -> pv l w v -> pv l' w v.
Proof.
  intros H [H1 H2]. split.
  - intros x b Hp. apply H1, H, Hp.
  - intros x Hc Hx. apply H2; [exact Hc|]. intros b Hb. apply (Hx b), H, Hb.
Qed.

Lemma contents_swap (v : Z -> T) x r : cellsOf sl x -> cellsOf sl r -> Permutation (contents (swapv v r x) sl) (contents v sl).
Proof.
  assert (E : forall w : Z -> T, contents w sl = seg w (off sl) (off sl + len sl)).
  { intro w. unfold contents, seg, zrange. rewrite map_map. replace (off sl + len sl - off sl) with (len sl) by lia. reflexivity. }
  intros Hx Hr. rewrite !E. apply permR_seg, permR_swap; [exact Hr|exact Hx].
Qed.

Lemma contents_cong (v w : Z -> T) : (forall i, cellsOf sl i -> v i = w i) -> contents v sl = contents w sl.
Proof.
  intro H. unfold contents. apply map_ext_in. intros k Hk. apply in_seq in Hk. apply H. unfold cellsOf. lia.
Qed.

(** The goroutines that did not move. *)
Lemma cls_others j s i c w' c' fs : (forall a c, nth_error (gors s) a = Some c -> cls (S j) (mem (sh s)) c) ->
  nth_error (gors s) i = Some c -> cls j w' c' -> Forall (tidy body j) fs ->
  (forall a d x, a <> i -> nth_error (gors s) a = Some d -> owes d x -> w' x = mem (sh s) x) ->
  forall a d, nth_error (lupd (gors s) i c' ++ fs) a = Some d -> cls j w' d.
Proof.
  intros HI Hi HC HF HW a d Hd.
  destruct (Nat.lt_ge_cases a (length (lupd (gors s) i c'))) as [L|L].
  - rewrite nth_error_app1 in Hd by exact L. rewrite nth_error_lupd in Hd.
    destruct (Nat.eqb_spec a i) as [E|E].
    + destruct (Nat.ltb i (length (gors s))); inversion Hd; subst. exact HC.
    + eapply cls_upd; [exact (HI a d Hd)|]. intros x Hx. exact (HW a d x E Hd Hx).
  - rewrite nth_error_app2 in Hd by exact L. apply nth_error_In in Hd. rewrite Forall_forall in HF.
    apply cls_idle, HF, Hd.
Qed.

Lemma tidy_pends j fs p : Forall (tidy body (S j)) fs -> ~ pends fs p.
Proof.
  intros HF (f & Hf & Hp). rewrite Forall_forall in HF. rewrite (tidy_pend j f (HF f Hf)) in Hp. discriminate.
Qed.

(** A step that leaves the memory alone and neither opens nor completes an exchange. *)
Lemma inv_plain j s s' i c c' fs : INV (S (S j)) s -> nth_error (gors s) i = Some c ->
  mem (sh s') = mem (sh s) -> gors s' = lupd (gors s) i c' ++ fs -> pend c = None -> pend c' = None ->
  cls (S j) (mem (sh s)) c' -> Forall (tidy body (S j)) fs -> INV (S j) s'.
Proof.
  intros [HI (v & HV & HP)] Hi Hm Hg Hc Hc' HC HF. split.
  - rewrite Hm, Hg. eapply cls_others; eauto.
  - exists v. split; [|exact HP]. rewrite Hm. eapply pv_same; [|exact HV]. intro p. rewrite Hg.
    rewrite (pends_at _ i c p Hi), (pends_upd _ i c c' fs p Hi). assert (HF0 := tidy_pends j fs p HF). rewrite Hc, Hc'.
    split; intros [H|H]; try discriminate; auto. destruct H as [H|H]; [auto|contradiction].
Qed.

Lemma tidy_plain j s s' i c c' fs : INV (S (S j)) s -> nth_error (gors s) i = Some c ->
  mem (sh s') = mem (sh s) -> gors s' = lupd (gors s) i c' ++ fs -> pend c = None ->
  tidy body (S j) c' -> Forall (tidy body (S j)) fs -> INV (S j) s'.
Proof.
  intros HI Hi Hm Hg Hc HT HF. eapply inv_plain; eauto; [exact (tidy_pend j c' HT)|apply cls_idle, HT].
Qed.

Lemma pend_first c r a k2 x b k3 : view c = HWrite r a k2 -> view k2 = HWrite x b k3 -> pend c = None.
Proof. intros E1 E2. unfold pend. rewrite E1, E2. reflexivity. Qed.

Lemma pend_second j c x b k3 : view c = HWrite x b k3 -> tidy body (S j) k3 -> pend c = Some (x, b).
Proof. intros E H. cbn [tidy] in H. unfold pend. rewrite E. destruct (view k3); try reflexivity. destruct H. Qed.

Lemma inv_first k j s s' i c x r k2 k3 : ex k s0 s -> INV (S (S j)) s -> nth_error (gors s) i = Some c ->
  x <> r -> view c = HWrite r (mem (sh s) x) k2 -> view k2 = HWrite x (mem (sh s) r) k3 -> tidy body (S (S j)) k3 ->
  mem (sh s') = upd (mem (sh s)) r (mem (sh s) x) -> gors s' = lupd (gors s) i k2 ++ [] -> INV (S j) s'.
Proof.
  intros He [HI (v & [HV1 HV2] & HP)] Hi Hn E1 E2 HT Hm Hg. set (w := mem (sh s)) in *.
  assert (Ox : owes c x) by (eapply owes_next; eauto). assert (Or : owes c r) by (eapply owes_now; eauto).
  assert (Hx : cellsOf sl x) by (eapply owes_cell; eauto). assert (Hr : cellsOf sl r) by (eapply owes_cell; eauto).
  assert (Ap : forall a d y, a <> i -> nth_error (gors s) a = Some d -> owes d y -> y <> r).
  { intros a d y Ha Hd Hy ->. eapply (owes_apart k s a i d c r true); eauto. unfold access. rewrite E1. reflexivity. }
  assert (No : forall y b, others (gors s) i (y, b) -> y <> r /\ y <> x).
  { intros y b (a & d & Ha & Hd & Hp). apply pend_access in Hp.
    split; intros ->; [eapply (owes_apart k s i a c d r true)|eapply (owes_apart k s i a c d x true)]; eauto. }
  assert (Vn : forall y, cellsOf sl y -> (forall b, ~ others (gors s) i (y, b)) -> v y = w y).
  { intros y Hy H. apply HV2; [exact Hy|]. intros b Hb. apply (pends_at _ i c _ Hi) in Hb.
    rewrite (pend_first c _ _ _ _ _ _ E1 E2) in Hb. destruct Hb as [Hb|Hb]; [discriminate|apply (H b Hb)]. }
  assert (Vr : v r = w r) by (apply Vn; [exact Hr|intros b Hb; apply No in Hb; lia]).
  assert (Vx : v x = w x) by (apply Vn; [exact Hx|intros b Hb; apply No in Hb; lia]).
  split.
  - rewrite Hm, Hg. eapply cls_others; eauto.
    + eapply cls_second; [exact E2|]. apply tidy_down, HT.
    + intros a d y Ha Hd Hy. unfold upd. assert (Hy' := Ap a d y Ha Hd Hy). apply Z.eqb_neq in Hy'. rewrite Hy'. reflexivity.
  - exists (upd (upd v r (w x)) x (w r)). split.
    + assert (PU : forall p, pends (gors s') p <-> p = (x, w r) \/ others (gors s) i p).
      { intro p. rewrite Hg, (pends_upd _ i c k2 [] p Hi). rewrite (pend_second (S j) k2 _ _ _ E2 HT). split.
        - intros [H|[H|(d & [] & _)]]; [left; congruence|auto].
        - intros [->|H]; auto. }
      split.
      * intros y b Hp. apply PU in Hp. unfold upd. destruct Hp as [Hp|Hp].
        -- inversion Hp; subst. rewrite Z.eqb_refl. reflexivity.
        -- destruct (No y b Hp) as [N1 N2]. apply Z.eqb_neq in N1, N2. rewrite N1, N2. apply HV1, (pends_at _ i c _ Hi). auto.
      * intros y Hy Hp. assert (y <> x) by (intros ->; apply (Hp (w r)), PU; auto).
        rewrite Hm. unfold upd. apply Z.eqb_neq in H. rewrite H. destruct (y =? r); [reflexivity|].
        apply Vn; [exact Hy|]. intros b Hb. apply (Hp b), PU. auto.
    + rewrite <- HP. rewrite <- (contents_swap v x r Hx Hr). erewrite contents_cong; [reflexivity|].
      intros y _. unfold swapv, upd. rewrite <- Vr, <- Vx. reflexivity.
Qed.

Lemma inv_second k j s s' i c x b k3 : ex k s0 s -> INV (S (S j)) s -> nth_error (gors s) i = Some c ->
  view c = HWrite x b k3 -> tidy body (S (S j)) k3 ->
  mem (sh s') = upd (mem (sh s)) x b -> gors s' = lupd (gors s) i k3 ++ [] -> INV (S j) s'.
Proof.
  intros He [HI (v & [HV1 HV2] & HP)] Hi E HT Hm Hg.
  assert (PO : forall p, pends (gors s) p <-> p = (x, b) \/ others (gors s) i p).
  { intro p. rewrite (pends_at _ i c p Hi), (pend_second (S j) c _ _ _ E HT). split; (intros [H|H]; [left; congruence|auto]). }
  assert (PU : forall p, pends (gors s') p <-> others (gors s) i p).
  { intro p. rewrite Hg, (pends_upd _ i c k3 [] p Hi), (tidy_pend (S j) k3 HT). split; [|auto].
    intros [H|[H|(d & [] & _)]]; [discriminate|auto]. }
  split.
  - rewrite Hm, Hg. eapply cls_others; eauto; [apply cls_idle, tidy_down, HT|].
    intros a d y Ha Hd Hy. unfold upd. destruct (Z.eqb_spec y x) as [->|_]; [exfalso|reflexivity].
    eapply (owes_apart k s a i d c x true); eauto. unfold access. rewrite E. reflexivity.
  - exists v. split; [|exact HP]. split.
    + intros y b' Hp. apply HV1, PO. right. apply PU, Hp.
    + intros y Hy Hp. rewrite Hm. unfold upd. destruct (Z.eqb_spec y x) as [->|Hn].
      * apply HV1, PO. auto.
      * apply HV2; [exact Hy|]. intros b' Hb. apply PO in Hb. destruct Hb as [Hb|Hb]; [congruence|].
        apply (Hp b'), PU, Hb.
Qed.

Lemma inv_step k j s s' : ex k s0 s -> INV (S (S (S j))) s -> pstep body s s' -> INV (S j) s'.
Proof.
  intros He HI Hs. assert (HI2 : INV (S (S j)) s).
  { destruct HI as [H1 H2]. split; [|exact H2]. intros i c Hi. eapply cls_upd; [exact (H1 i c Hi)|auto]. }
  apply pstep_change in Hs.
  remember (sh s) as h0 eqn:Eh0. remember (gors s) as l0 eqn:El0. remember (sh s') as h1 eqn:Eh1. remember (gors s') as l1 eqn:El1.
  destruct Hs as [l i c c' h h' fs Hi Hx|l i c kk z h Hi Hv|l i i2 c1 c2 v k1 k2 h Hii Hi1 Hi2 Hv1 Hv2]; subst h l.
  - assert (HC := proj1 HI2 i c Hi). destruct HC as [HT|x r k1 Hn Hv H|x r k2 k3 Hn Hv Hv2 HT|x b k3 Hv HT].
    + assert (Hp := tidy_pend (S j) c HT). unfold exec_local in Hx.
      destruct (view c) eqn:Ev; try discriminate; injection Hx as Ec Eh Ef; subst c' fs;
        assert (HT' := HT); remember (S j) as j1 eqn:Ej1; cbn [tidy] in HT'; rewrite Ev in HT'; subst j1;
        try (assert (Hm : mem (sh s') = mem (sh s)) by (rewrite <- Eh1, <- Eh; reflexivity));
        try (eapply (tidy_plain j s s' i c); eauto; fail).
      * destruct HT' as [HT'|(r & Hn & HT')].
        -- eapply (tidy_plain j s s' i c); eauto.
        -- destruct (HT' (mem (sh s) i0)) as (k1 & E1 & HT1).
           eapply (inv_plain j s s' i c); eauto; [unfold pend; rewrite E1; reflexivity|].
           eapply cls_read; [exact Hn|exact E1|exact HT1].
      * destruct HT'.
      * destruct HT' as [HT1 HT2]. eapply (tidy_plain j s s' i c); eauto.
    + unfold exec_local in Hx. rewrite Hv in Hx. injection Hx as Ec Eh Ef; subst c' fs.
      assert (Hm : mem (sh s') = mem (sh s)) by (rewrite <- Eh1, <- Eh; reflexivity).
      destruct (H (mem (sh s) r)) as (k2 & k3 & E1 & E2 & HT).
      eapply (inv_plain j s s' i c); eauto; [unfold pend; rewrite Hv; reflexivity|eapply pend_first; eauto|].
      eapply cls_first; [exact Hn|exact E1|exact E2|apply tidy_down, HT].
    + unfold exec_local in Hx. rewrite Hv in Hx. injection Hx as Ec Eh Ef; subst c' fs.
      eapply inv_first; eauto. rewrite <- Eh1, <- Eh. reflexivity.
    + unfold exec_local in Hx. rewrite Hv in Hx. injection Hx as Ec Eh Ef; subst c' fs.
      eapply inv_second; eauto. rewrite <- Eh1, <- Eh. reflexivity.
  - assert (HC := proj1 HI2 i c Hi). destruct HC as [HT| | |]; try congruence.
    assert (Hp := tidy_pend (S j) c HT). remember (S j) as j1 eqn:Ej1. cbn [tidy] in HT. rewrite Hv in HT. subst j1.
    apply (tidy_plain j s s' i c (kk z) []); auto; [congruence|rewrite app_nil_r; auto].
  - assert (HC := proj1 HI i c1 Hi1). destruct HC as [HT| | |]; try congruence.
    assert (Hp := tidy_pend (S (S j)) c1 HT).
    assert (HC2 := proj1 HI i2 c2 Hi2). destruct HC2 as [HT2| | |]; try congruence.
    assert (Hp2 := tidy_pend (S (S j)) c2 HT2).
    remember (S (S j)) as j1 eqn:Ej1. cbn [tidy] in HT, HT2. rewrite Hv1 in HT. rewrite Hv2 in HT2. subst j1.
    set (ml := lupd (gors s) i k1) in *.
    set (sm := St (match ml with a :: _ => a | [] => main s end) (match ml with _ :: b => b | [] => [] end) (sh s)).
    assert (HG : gors sm = ml).
    { unfold sm, Swaps.gors at 1. cbn [main thr].
      assert (L : length ml = length (gors s)) by apply lupd_length. destruct ml; [discriminate|reflexivity]. }
    assert (HM : INV (S (S j)) sm).
    { eapply (tidy_plain (S j) s sm i c1 k1 []); eauto. rewrite HG, app_nil_r. reflexivity. }
    eapply (tidy_plain j sm s' i2 c2 (k2 v) [] HM); eauto.
    + rewrite HG. unfold ml. rewrite nth_error_lupd. destruct (Nat.eqb_spec i2 i); [congruence|exact Hi2].
    + cbn [sm sh]. congruence.
    + rewrite HG, app_nil_r. auto.
    + apply tidy_down. auto.
Qed.

Lemma inv_exec k a s : ex k a s -> a = s0 -> (forall m, INV m s0) -> forall m, INV m s.
Proof.
  intros He Ea H0. induction He as [a|k a s1 s2 He IH Hs|k a s1 s2 He IH Hs]; subst; auto.
  - intros m. assert (Hm := inv_step k m s1 s2 He (IH eq_refl _) Hs). destruct Hm as [H1 H2]. split; [|exact H2].
    intros i c Hi. eapply cls_upd; [exact (H1 i c Hi)|auto].
  - inversion Hs as [mm ts sh0 mem' mg' Hmg Hcell E1 E2]; subst. intro m. assert (IHm := IH eq_refl). split.
    + intros i c Hi. cbn [sh mem]. eapply cls_upd; [exact (proj1 (IHm (S m)) i c Hi)|].
      intros x Hx. cbn [sh]. apply Hcell. eapply owes_cell; [exact He|exact Hi|exact Hx].
    + destruct (IHm m) as [_ (v & [HV1 HV2] & HP)]. exists v. split; [|exact HP]. split; [exact HV1|].
      intros x Hx Hp. cbn [sh mem]. rewrite Hcell by exact Hx. apply HV2; [exact Hx|exact Hp].
Qed.

Lemma inv_start c mg0 : (forall m, tidy body m c) -> s0 = start c m0 mg0 -> forall m, INV m s0.
Proof.
  intros HT -> m. split.
  - intros i d Hd. unfold Swaps.gors in Hd. cbn in Hd. destruct i as [|i]; [|destruct i; discriminate].
    inversion Hd; subst. apply cls_idle, HT.
  - exists m0. split; [|reflexivity]. split; [|reflexivity].
    intros x b (d & Hd & Hp). destruct Hd as [<-|[]]. cbn [main start] in Hp. rewrite (tidy_pend 0 _ (HT 1%nat)) in Hp. discriminate.
Qed.

(** At any time, the memory is a permutation of the elements but for the cells that are
    about to be written. *)
Lemma keep c mg0 k s : (forall m, tidy body m c) -> s0 = start c m0 mg0 -> ex k s0 s ->
  exists v, Permutation (contents v sl) (contents m0 sl) /\
    forall x, cellsOf sl x -> ~ In (Some (x, true)) (accesses s) -> mem (sh s) x = v x.
Proof.
  intros HT E He. destruct (inv_exec k s0 s He eq_refl (inv_start c mg0 HT E) O) as [_ (v & [_ HV] & HP)].
  exists v. split; [exact HP|]. intros x Hx Hw. symmetry. apply HV; [exact Hx|].
  intros b (d & Hd & Hp). apply pend_access in Hp. apply Hw. rewrite accesses_gors, <- Hp. apply in_map, Hd.
Qed.

End Keep.

(** ** The programs of sortyLsw.go are tidy *)

Section LswTidy.
Context {Wd : word}.
Context {T : Type}.
Variables (lt : T -> T -> bool) (cap : Z) (tn : tuning) (meanI : Z -> Z -> Z).
Notation bd := (lswBody lt cap tn meanI).
Notation td := (tidy bd).

Lemma tidy_cget m i : td m (cget cap i).
Proof. unfold cget. destruct (_ && _); [apply tidy_read; intros; apply tidy_ret|apply tidy_panic]. Qed.

Lemma tidy_lsw m i k r s : td m (lsw lt cap i k r s).
Proof.
  unfold lsw. rewrite <- (andb_assoc ((0 <=? r) && (r <? cap))).
  destruct ((0 <=? r) && (r <? cap)) eqn:Er; cbn [negb andb]; [|apply tidy_panic].
  destruct ((0 <=? s) && (s <? cap)) eqn:Es; cbn [negb]; [|apply tidy_panic].
  apply tidy_bind; [apply tidy_cget|]. intros x m1 _.
  apply tidy_bind; [apply tidy_cget|]. intros y m2 _.
  destruct (lt x y); [|apply tidy_ret]. destruct (Z.eqb_spec r s) as [E|E]; [apply tidy_ret|].
  unfold cget, cset. rewrite Er, Es. apply tidy_exchange; [auto|]. intros. apply tidy_ret.
Qed.

Ltac tidy1 :=
  match goal with
  | |- tidy _ _ (Ret _) => apply tidy_ret
  | |- tidy _ _ Panic => apply tidy_panic
  | |- tidy _ _ (lsw _ _ _ _ _ _) => apply tidy_lsw
  | |- tidy _ _ (Loop _ _) => apply tidy_loop; intros
  | |- tidy _ _ (Bind _ _) => apply tidy_bind; [|intros]
  | |- tidy _ _ (LoadMax _) => apply tidy_loadmax; intros
  | |- tidy _ _ (LoadGor _) => apply tidy_loadgor; intros
  | |- tidy _ _ (AddGor _ _) => apply tidy_addgor; intros
  | |- tidy _ _ (Recv _) => apply tidy_recv; intros
  | |- tidy _ _ (Send _ _) => apply tidy_send; intros
  | |- tidy _ _ (MakeSv _) => apply tidy_makesv; intros
  | |- tidy _ _ (let _ := _ in _) => cbv zeta
  | |- tidy _ _ (match ?x with _ => _ end) => destruct x
  | |- tidy _ _ (if ?x then _ else _) => destruct x
  end.
Ltac tidy_all := repeat tidy1; auto.

Lemma tidy_insertion m lo hi : td m (lswInsertion lt cap lo hi).
Proof. unfold lswInsertion. tidy_all. Qed.
Lemma tidy_samples m a b c : td m (lswSamples lt cap a b c).
Proof. unfold lswSamples. tidy_all. Qed.
Lemma tidy_pivot m a b c : td m (lswPivot lt cap meanI a b c).
Proof. unfold lswPivot. destruct (minMaxSample _ _) as [[f s] l]. apply tidy_bind; [apply tidy_samples|intros]. tidy_all. Qed.
Lemma tidy_partOne m a b c : td m (lswPartOne lt cap a b c).
Proof. unfold lswPartOne. tidy_all. Qed.
Lemma tidy_partTwo m a b c d e : td m (lswPartTwo lt cap a b c d e).
Proof. unfold lswPartTwo. tidy_all. Qed.
Lemma tidy_gapLow m a b c d : td m (lswGapLow lt cap a b c d).
Proof. unfold lswGapLow. tidy_all. Qed.
Lemma tidy_gapHigh m a b c d : td m (lswGapHigh lt cap a b c d).
Proof. unfold lswGapHigh. tidy_all. Qed.
Lemma tidy_pivotShort m a b : td m (lswPivotShort lt cap a b).
Proof. unfold lswPivotShort. tidy_all. Qed.
Lemma tidy_gorFull m : td m lswGorFull.
Proof. unfold lswGorFull. tidy_all. Qed.
Lemma tidy_gPart m a b c : td m (lswGPartOne lt cap a b c).
Proof. unfold lswGPartOne. apply tidy_bind; [apply tidy_partOne|intros]. tidy_all. Qed.

Lemma tidy_body m : forall p, td m (bd p).
Proof.
  induction m as [m IH] using (well_founded_induction lt_wf). intro p.
  assert (IHc : forall {A} m' q (k : cmd lproc T A), (m' <= m)%nat -> (forall m0, (m0 < m')%nat -> td m0 k) -> td m' (Lang.Call q k)).
  { intros A m' q k Hm Hk. apply tidy_call; [|exact Hk]. intros m0 Hm0. apply IH. lia. }
  assert (IHf : forall {A} m' q (k : cmd lproc T A), (m' <= m)%nat -> (forall m0, (m0 < m')%nat -> td m0 k) -> td m' (Fork q k)).
  { intros A m' q k Hm Hk. apply tidy_fork; [|exact Hk]. intros m0 Hm0. apply IH. lia. }
  destruct p as [lo hi|lo hi sv|lo hi|l pv h]; cbn [lswBody].
  - unfold lswShort. apply tidy_loop. intros [[lo' hi']|[[[[lo' hi'] l'] h'] no]] m' Hm.
    + apply tidy_bind; [apply tidy_pivotShort|intros]. apply tidy_bind; [apply tidy_partOne|intros].
      destruct (lswSplit _ _ _) as [[[[[l' h'] lo''] hi''] n] no].
      destruct (_ <=? _); [apply IHc; [lia|]|]; intros; apply tidy_ret.
    + apply tidy_bind; [apply tidy_insertion|intros]. tidy_all.
  - unfold lswLong. apply tidy_loop. intros [lo' hi'] m' Hm.
    apply tidy_bind; [apply tidy_pivot|intros]. apply tidy_bind; [apply tidy_partOne|intros].
    destruct (lswSplit _ _ _) as [[[[[l' h'] lo''] hi''] n] no].
    destruct (_ <? _).
    + apply tidy_bind.
      * destruct (_ <=? _); [apply IHc; [lia|intros; apply tidy_ret]|apply tidy_insertion].
      * intros. destruct (_ <=? _); [apply tidy_ret|apply IHc; [lia|intros; apply tidy_ret]].
    + apply tidy_bind; [destruct sv; [apply tidy_gorFull|apply tidy_ret]|]. intros [|] m2 H2.
      * apply IHc; [lia|intros; apply tidy_ret].
      * apply tidy_addgor. intros. apply IHf; [lia|intros; apply tidy_ret].
  - unfold lswGLong. apply IHc; [lia|]. intros. tidy_all.
  - apply tidy_gPart.
Qed.

Lemma tidy_callb m {A} q (k : cmd lproc T A) : (forall m0, (m0 < m)%nat -> td m0 k) -> td m (Lang.Call q k).
Proof. intro H. apply tidy_call; [intros; apply tidy_body|exact H]. Qed.
Lemma tidy_forkb m {A} q (k : cmd lproc T A) : (forall m0, (m0 < m)%nat -> td m0 k) -> td m (Fork q k).
Proof. intro H. apply tidy_fork; [intros; apply tidy_body|exact H]. Qed.

Lemma tidy_partCon m lo hi : td m (lswPartCon lt cap meanI lo hi).
Proof.
  unfold lswPartCon. apply tidy_bind; [apply tidy_pivot|intros]. cbv zeta. apply tidy_forkb. intros.
  apply tidy_bind; [apply tidy_partTwo|intros]. apply tidy_recv. intros.
  destruct (_ <? _); [apply tidy_gapLow|apply tidy_gapHigh].
Qed.

Lemma tidy_sort m n : td m (lswSort lt cap tn meanI n).
Proof.
  unfold lswSort. cbv zeta. apply tidy_bind; [tidy_all|]. intros [|] m' _.
  - destruct (_ <=? _); [apply tidy_callb; intros; apply tidy_ret|].
    destruct (_ <=? _); [apply tidy_callb; intros; apply tidy_ret|].
    destruct (_ <? _); [apply tidy_insertion|apply tidy_ret].
  - unfold lswSortConc. apply tidy_makesv. intros. apply tidy_bind.
    + apply tidy_loop. intros [lo hi] m2 _. apply tidy_bind; [apply tidy_partCon|intros].
      destruct (lswSplit _ _ _) as [[[[[l' h'] lo''] hi''] n'] no]. apply tidy_bind.
      * destruct (_ <=? _); [apply tidy_addgor; intros; apply tidy_forkb; intros; apply tidy_ret|].
        destruct (_ <=? _); [apply tidy_callb; intros; apply tidy_ret|apply tidy_insertion].
      * intros. destruct (_ <=? _); [apply tidy_ret|]. apply tidy_bind; [apply tidy_gorFull|intros]. tidy_all.
    + intros [lo hi] m2 _. apply tidy_callb. intros. tidy_all.
Qed.
End LswTidy.
