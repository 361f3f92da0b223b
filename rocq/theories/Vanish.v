(** * A Lesswap that does not return

    It may block for ever, or call runtime.Goexit (as testing's FailNow does), which ends the
    goroutine it is called in.  Then that goroutine does nothing any more: the functions of
    sortyLsw.go (gPartOne 165, gLong 263, long 272, Sort 337) defer nothing, so neither is a counter
    updated nor a channel served for it. *)

From Coq Require Import List ZArith Lia Bool Permutation Arith.
From Verif Require Import Lang Kinds Typed Trace Spec Lsw Calls Guarantee TopFacts.
Import ListNotations.
Open Scope Z_scope.

(** ** Specification *)

(** [forsaken C M k D s]: the call is in state [s] after [k] steps, and goroutines [D] have stopped (0: the caller), each
    when it was about to access an element. *)
Inductive forsaken {T} (C : call T) (M : Z) : nat -> list nat -> st (cP C) T unit -> Prop :=
| fs_start mg : 0 <= mg <= M -> forsaken C M 0 [] (start (cProg C) (cInit C) mg)
| fs_prog k D e s s' : forsaken C M k D s -> tstep (cProcs C) e s s' -> (forall t, doneBy e t -> ~ In t D) ->
    forsaken C M (S k) D s'
| fs_env k D s s' : forsaken C M k D s -> estep M (cCells C) s s' -> forsaken C M k D s'
| fs_stop k D s t x w : forsaken C M k D s -> nth_error (accesses s) t = Some (Some (x, w)) -> forsaken C M k (t :: D) s.

(** All goroutines but [D] have ended or wait for each other. *)
Definition waiting {P T} (D : list nat) (s : st P T unit) : Prop :=
  forall t c, nth_error (main s :: thr s) t = Some c -> ~ In t D ->
    view c = HRet tt \/
    (exists v k, view c = HSend v k /\ forall u d k', nth_error (main s :: thr s) u = Some d -> ~ In u D -> view d <> HRecv k') \/
    (exists k, view c = HRecv k /\ forall u d v k', nth_error (main s :: thr s) u = Some d -> ~ In u D -> view d <> HSend v k').

(** ** Proofs *)

Lemma forsaken_reach {T} {C : call T} {M k D s} : forsaken C M k D s -> reach C M k s.
Proof.
  induction 1 as [mg Hmg|k D e s s' H (mg & Hmg & IH) Hs Hd|k D s s' H (mg & Hmg & IH) Hs|k D s t x w H IH Ha]; [| | |exact IH].
  - exists mg. split; [exact Hmg|constructor].
  - exists mg. split; [exact Hmg|]. eapply exec_prog; [exact IH|]. eapply tstep_pstep; exact Hs.
  - exists mg. split; [exact Hmg|]. eapply exec_env; eassumption.
Qed.

Lemma reach_forsaken {T} (C : call T) M k s : reach C M k s -> forsaken C M k [] s.
Proof.
  intros (mg & Hmg & He). remember (start (cProg C) (cInit C) mg) as s0 eqn:E0.
  induction He as [s|k s s1 s2 H IH Hs|k s s1 s2 H IH Hs]; subst.
  - apply fs_start. exact Hmg.
  - destruct (pstep_tstep _ _ _ Hs) as (e & He). eapply fs_prog; [apply IH; reflexivity|exact He|]. intros t _ [].
  - eapply fs_env; [apply IH; reflexivity|exact Hs].
Qed.

Section Steps.
Context {P T : Type}.
Variable body : P -> cmd P T unit.

Lemma nth_mid1 {X} (l1 : list X) c l2 i c' : i <> length l1 -> nth_error (l1 ++ c' :: l2) i = nth_error (l1 ++ c :: l2) i.
Proof.
  intro H. destruct (Nat.lt_ge_cases i (length l1)).
  - rewrite !nth_error_app1 by assumption. reflexivity.
  - rewrite !nth_error_app2 by assumption. destruct (i - length l1)%nat as [|j] eqn:E; [lia|reflexivity].
Qed.

Lemma nth_old {X} (l fs : list X) i c : nth_error l i = Some c -> nth_error (l ++ fs) i = Some c.
Proof. intro H. rewrite nth_error_app1; [exact H|]. apply nth_error_Some. congruence. Qed.

(** Who does not take part in a step stays as it is. *)
Lemma tstep_other e (s s' : st P T unit) t c : tstep body e s s' -> nth_error (main s :: thr s) t = Some c -> ~ doneBy e t ->
  nth_error (main s' :: thr s') t = Some c.
Proof.
  assert (L : forall A t n (c : cmd P T A), doneBy (Trace.label t n c) t) by (intros; unfold Trace.label; destruct (view _); reflexivity).
  intros Hs Hn Hd. destruct Hs as [m ts s m' s' fs Hx|m l1 d l2 s d' s' fs Hx|m l1 d l2 s v k k' H1 H2|m l1 d l2 s v k k' H1 H2
    |m l1 c1 l2 c2 l3 s v k k' H1 H2|m l1 c1 l2 c2 l3 s v k k' H1 H2|m ts s k z H1|m l1 d l2 s k z H1]; cbn [main thr] in *;
    destruct t as [|i]; cbn [nth_error] in *; try exact Hn; try (exfalso; apply Hd; first [apply L|reflexivity|left; reflexivity|right; reflexivity]).
  - apply nth_old. exact Hn.
  - destruct (Nat.eq_dec i (length l1)) as [->|D]; [exfalso; apply Hd, L|].
    rewrite app_comm_cons, app_assoc. apply nth_old. rewrite <- Hn. apply nth_mid1. exact D.
  - destruct (Nat.eq_dec i (length l1)) as [->|D]; [exfalso; apply Hd; left; reflexivity|]. rewrite <- Hn. apply nth_mid1. exact D.
  - destruct (Nat.eq_dec i (length l1)) as [->|D]; [exfalso; apply Hd; right; reflexivity|]. rewrite <- Hn. apply nth_mid1. exact D.
  - assert (D : i <> length l1 /\ i <> (length l1 + S (length l2))%nat).
    { split; intros ->; apply Hd; [left|right]; reflexivity. }
    rewrite (nth_mid1 l1 c1 _ i k) by apply D. rewrite <- Hn. rewrite !app_comm_cons, !app_assoc. apply nth_mid1. rewrite app_length. cbn. apply D.
  - assert (D : i <> length l1 /\ i <> (length l1 + S (length l2))%nat).
    { split; intros ->; apply Hd; [right|left]; reflexivity. }
    rewrite (nth_mid1 l1 c1 _ i (k' v)) by apply D. rewrite <- Hn. rewrite !app_comm_cons, !app_assoc. apply nth_mid1. rewrite app_length. cbn. apply D.
  - destruct (Nat.eq_dec i (length l1)) as [->|D]; [exfalso; apply Hd; reflexivity|]. rewrite <- Hn. apply nth_mid1. exact D.
Qed.

(** Who can move by itself. *)
Lemma local_steps (s : st P T unit) t c x : nth_error (main s :: thr s) t = Some c -> exec_local body c (sh s) = Some x ->
  exists e s', tstep body e s s' /\ forall u, doneBy e u -> u = t.
Proof.
  assert (L : forall A t n (c : cmd P T A) u, view c = HPanic \/ doneBy (Trace.label t n c) u -> view c = HPanic \/ u = t).
  { intros A t0 n c0 u [H|H]; [auto|]. right. unfold Trace.label in H. destruct (view c0); exact H. }
  intros Hn Hx. destruct x as [[c' s1] fs]. destruct s as [m ts s0]. destruct t as [|i]; cbn [main thr sh nth_error] in *.
  - injection Hn as ->. eexists _, _. split; [apply tstep_main; exact Hx|]. intros u Hu.
    unfold Trace.label in Hu. destruct (view c); exact Hu.
  - destruct (nth_error_split ts i Hn) as (l1 & l2 & -> & <-). eexists _, _. split; [apply tstep_thr; exact Hx|]. intros u Hu.
    unfold Trace.label in Hu. destruct (view c); exact Hu.
Qed.

Lemma comm_steps (s : st P T unit) t c u d v k k' : nth_error (main s :: thr s) t = Some c -> nth_error (main s :: thr s) u = Some d ->
  view c = HSend v k -> view d = HRecv k' -> exists s', tstep body (EvComm t u) s s'.
Proof.
  intros Ht Hu Hc Hd. destruct s as [m ts s0]. cbn [main thr] in *. destruct t as [|i], u as [|j]; cbn [nth_error] in *.
  - congruence.
  - injection Ht as ->. destruct (nth_error_split ts j Hu) as (l1 & l2 & -> & <-). eexists. eapply tstep_from_main; eassumption.
  - injection Hu as ->. destruct (nth_error_split ts i Ht) as (l1 & l2 & -> & <-). eexists. eapply tstep_to_main; eassumption.
  - destruct (Nat.lt_trichotomy i j) as [L|[->|L]]; [|congruence|].
    + destruct (nth_error_split ts i Ht) as (l1 & l2 & -> & <-). rewrite nth_error_app2 in Hu by lia.
      destruct (j - length l1)%nat as [|j'] eqn:E; [lia|]. cbn [nth_error] in Hu.
      destruct (nth_error_split l2 j' Hu) as (l3 & l4 & -> & El). exists (St m (l1 ++ k :: l3 ++ k' v :: l4) s0).
      replace (S j) with (S (length l1 + S (length l3))) by lia. eapply tstep_thr_thr1; eassumption.
    + destruct (nth_error_split ts j Hu) as (l1 & l2 & -> & <-). rewrite nth_error_app2 in Ht by lia.
      destruct (i - length l1)%nat as [|i'] eqn:E; [lia|]. cbn [nth_error] in Ht.
      destruct (nth_error_split l2 i' Ht) as (l3 & l4 & -> & El). exists (St m (l1 ++ k' v :: l3 ++ k :: l4) s0).
      replace (S i) with (S (length l1 + S (length l3))) by lia. eapply tstep_thr_thr2; eassumption.
Qed.

Lemma nth_snoc {X} (l1 : list X) c l2 : nth_error (l1 ++ c :: l2) (length l1) = Some c.
Proof. rewrite nth_error_app2, Nat.sub_diag by lia. reflexivity. Qed.

(** Nobody but [D] can move if and only if all others wait. *)
Lemma waiting_stuck D (s : st P T unit) : ~ panicked s ->
  (waiting D s <-> forall e s', tstep body e s s' -> exists t, doneBy e t /\ In t D).
Proof.
  intro Hp. split.
  - intros Hw e s' Hs.
    assert (Loc : forall t c, nth_error (main s :: thr s) t = Some c -> exec_local body c (sh s) <> None -> In t D).
    { intros t c Hn Hx. destruct (in_dec Nat.eq_dec t D) as [Hi|Hi]; [exact Hi|]. exfalso. apply Hx. unfold exec_local.
      destruct (Hw t c Hn Hi) as [E|[(v & k & E & _)|(k & E & _)]]; rewrite E; reflexivity. }
    assert (Com : forall t u c d v k k', nth_error (main s :: thr s) t = Some c -> nth_error (main s :: thr s) u = Some d ->
      view c = HSend v k -> view d = HRecv k' -> In t D \/ In u D).
    { intros t u c d v k k' Hc Hd E1 E2. destruct (in_dec Nat.eq_dec t D) as [Hi|Hi]; [auto|].
      destruct (in_dec Nat.eq_dec u D) as [Hj|Hj]; [auto|]. exfalso.
      destruct (Hw t c Hc Hi) as [E|[(v' & k1 & E & F)|(k1 & E & _)]]; [congruence| |congruence]. exact (F u d k' Hd Hj E2). }
    assert (Lb : forall A t n (c : cmd P T A), doneBy (Trace.label t n c) t) by (intros; unfold Trace.label; destruct (view _); reflexivity).
    destruct Hs as [m ts s m' s' fs Hx|m l1 c l2 s c' s' fs Hx|m l1 c l2 s v k k' H1 H2|m l1 c l2 s v k k' H1 H2
      |m l1 c1 l2 c2 l3 s v k k' H1 H2|m l1 c1 l2 c2 l3 s v k k' H1 H2|m ts s k z H1|m l1 c l2 s k z H1]; cbn [main thr sh] in *.
    + exists O. split; [apply Lb|]. apply (Loc O m eq_refl). congruence.
    + exists (S (length l1)). split; [apply Lb|]. apply (Loc (S (length l1)) c); [apply nth_snoc|congruence].
    + destruct (Com (S (length l1)) O c m v k k' (nth_snoc _ _ _) eq_refl H1 H2); eexists; (split; [|eassumption]); cbn; auto.
    + destruct (Com O (S (length l1)) m c v k k' eq_refl (nth_snoc _ _ _) H1 H2); eexists; (split; [|eassumption]); cbn; auto.
    + assert (N2 : nth_error (l1 ++ c1 :: l2 ++ c2 :: l3) (length l1 + S (length l2)) = Some c2).
      { rewrite app_comm_cons, app_assoc. replace (length l1 + S (length l2))%nat with (length (l1 ++ c1 :: l2)) by (rewrite app_length; cbn; lia).
        apply nth_snoc. }
      destruct (Com (S (length l1)) (S (length l1 + S (length l2))) c1 c2 v k k' (nth_snoc _ _ _) N2 H1 H2);
        eexists; (split; [|eassumption]); cbn; auto.
    + assert (N2 : nth_error (l1 ++ c1 :: l2 ++ c2 :: l3) (length l1 + S (length l2)) = Some c2).
      { rewrite app_comm_cons, app_assoc. replace (length l1 + S (length l2))%nat with (length (l1 ++ c1 :: l2)) by (rewrite app_length; cbn; lia).
        apply nth_snoc. }
      destruct (Com (S (length l1 + S (length l2))) (S (length l1)) c2 c1 v k k' N2 (nth_snoc _ _ _) H2 H1);
        eexists; (split; [|eassumption]); cbn; auto.
    + exists O. split; [reflexivity|]. apply (Loc O m eq_refl). unfold exec_local. rewrite H1. discriminate.
    + exists (S (length l1)). split; [reflexivity|]. apply (Loc (S (length l1)) c); [apply nth_snoc|]. unfold exec_local. rewrite H1. discriminate.
  - intros Hst t c Hn Hi.
    assert (Hx : exec_local body c (sh s) = None).
    { destruct (exec_local body c (sh s)) as [x|] eqn:E; [|reflexivity]. exfalso.
      destruct (local_steps s t c x Hn E) as (e & s' & Hs & He). destruct (Hst e s' Hs) as (u & Hu & Hd). apply Hi. rewrite <- (He u Hu). exact Hd. }
    assert (Np : view c <> HPanic).
    { intro E. apply Hp. destruct t as [|i]; cbn [nth_error] in Hn; [left; congruence|right]. exists c. split; [eapply nth_error_In; exact Hn|exact E]. }
    unfold exec_local in Hx. destruct (view c) as [[]| | | | | | | | | | |v k|k] eqn:E; try discriminate; [left; reflexivity|contradiction| |].
    + right. left. exists v, k. split; [reflexivity|]. intros u d k' Hd Hj F.
      destruct (comm_steps s t c u d v k k' Hn Hd E F) as (s' & Hs). destruct (Hst _ s' Hs) as (w & [->| ->] & Hw); contradiction.
    + right. right. exists k. split; [reflexivity|]. intros u d v k' Hd Hj F.
      destruct (comm_steps s u d t c v k' k Hd Hn F E) as (s' & Hs). destruct (Hst _ s' Hs) as (w & [->| ->] & Hw); contradiction.
Qed.

(** Either all others wait, or one can move. *)
Lemma waiting_or_steps D (s : st P T unit) : ~ panicked s -> waiting D s \/ exists e s', tstep body e s s' /\ forall t, doneBy e t -> ~ In t D.
Proof.
  intro Hp.
  set (live := filter (fun p => negb (existsb (Nat.eqb (fst p)) D)) (combine (seq 0 (S (length (thr s)))) (main s :: thr s))).
  assert (HL : forall t c, In (t, c) live <-> nth_error (main s :: thr s) t = Some c /\ ~ In t D).
  { intros t c. unfold live. rewrite filter_In. cbn [fst].
    assert (E : negb (existsb (Nat.eqb t) D) = true <-> ~ In t D).
    { rewrite negb_true_iff, <- not_true_iff_false, existsb_exists. split; intros H F; apply H.
      - exists t. split; [exact F|apply Nat.eqb_refl].
      - destruct F as (y & Hy & F). apply Nat.eqb_eq in F. subst. exact Hy. }
    rewrite E. split; intros [H1 H2]; (split; [|exact H2]).
    - apply In_nth_error in H1. destruct H1 as (j & Hj).
      assert (Hl : (j < S (length (thr s)))%nat).
      { assert (Q : (j < length (combine (seq 0 (S (length (thr s)))) (main s :: thr s)))%nat) by (apply nth_error_Some; congruence).
        rewrite combine_length, seq_length in Q. cbn [length] in Q. lia. }
      assert (G : forall X (l : list X) a j x y, nth_error (combine (seq a (length l)) l) j = Some (x, y) -> x = (a + j)%nat /\ nth_error l j = Some y).
      { clear. intros X l. induction l as [|z l IH]; intros a j x y H; [destruct j; discriminate|]. cbn [length seq combine] in H.
        destruct j as [|j]; cbn [nth_error] in *; [inversion H; split; [lia|reflexivity]|]. destruct (IH (S a) j x y H) as [-> Hy]. split; [lia|exact Hy]. }
      destruct (G _ (main s :: thr s) O j t c Hj) as [-> Hc]. exact Hc.
    - assert (G : forall X (l : list X) a j y, nth_error l j = Some y -> In ((a + j)%nat, y) (combine (seq a (length l)) l)).
      { clear. intros X l. induction l as [|z l IH]; intros a j y H; [destruct j; discriminate|]. cbn [length seq combine].
        destruct j as [|j]; cbn [nth_error] in *; [inversion H; left; f_equal; lia|]. right. replace (a + S j)%nat with (S a + j)%nat by lia. apply IH. exact H. }
      exact (G _ (main s :: thr s) O t c H1). }
  clearbody live.
  (* one that moves by itself *)
  assert (A : (exists t c, In (t, c) live /\ exec_local body c (sh s) <> None) \/ forall t c, In (t, c) live -> exec_local body c (sh s) = None).
  { clear HL. induction live as [|[t c] l IH]; [right; intros t c []|]. destruct (exec_local body c (sh s)) as [x|] eqn:E.
    - left. exists t, c. split; [left; reflexivity|congruence].
    - destruct IH as [(u & d & Hi & Hx)|IH]; [left; exists u, d; split; [right; exact Hi|exact Hx]|]. right.
      intros u d [F|F]; [congruence|apply (IH u d F)]. }
  destruct A as [(t & c & Hi & Hx)|Hno].
  { right. apply HL in Hi. destruct Hi as [Hn Hi]. destruct (exec_local body c (sh s)) as [x|] eqn:E; [|contradiction].
    destruct (local_steps s t c x Hn E) as (e & s' & Hs & He). exists e, s'. split; [exact Hs|]. intros u Hu. rewrite (He u Hu). exact Hi. }
  (* one that sends, one that receives *)
  assert (B1 : (exists t c v k, In (t, c) live /\ view c = HSend v k) \/ forall t c v k, In (t, c) live -> view c <> HSend v k).
  { clear - live. induction live as [|[t c] l IH]; [right; intros t c v k []|].
    destruct IH as [(u & d & v & k & Hi & E)|IH]; [left; exists u, d, v, k; split; [right; exact Hi|exact E]|].
    destruct (view c) eqn:E; try (right; intros u0 d0 v0 k0 [F|F]; [congruence|apply (IH u0 d0 v0 k0 F)]).
    left. eexists t, c, _, _. split; [left; reflexivity|exact E]. }
  assert (B2 : (exists t c k, In (t, c) live /\ view c = HRecv k) \/ forall t c k, In (t, c) live -> view c <> HRecv k).
  { clear - live. induction live as [|[t c] l IH]; [right; intros t c k []|].
    destruct IH as [(u & d & k & Hi & E)|IH]; [left; exists u, d, k; split; [right; exact Hi|exact E]|].
    destruct (view c) eqn:E; try (right; intros u0 d0 k0 [F|F]; [congruence|apply (IH u0 d0 k0 F)]).
    left. eexists t, c, _. split; [left; reflexivity|exact E]. }
  assert (W : (forall t c v k, In (t, c) live -> view c <> HSend v k) \/ (forall t c k, In (t, c) live -> view c <> HRecv k) -> waiting D s).
  { intros HW t c Hn Hi. assert (Hl : In (t, c) live) by (apply HL; auto). assert (Hx := Hno t c Hl).
    assert (Np : view c <> HPanic).
    { intro E. apply Hp. destruct t as [|i]; cbn [nth_error] in Hn; [left; congruence|right]. exists c. split; [eapply nth_error_In; exact Hn|exact E]. }
    unfold exec_local in Hx. destruct (view c) as [[]| | | | | | | | | | |v k|k] eqn:E; try discriminate; [left; reflexivity|contradiction| |].
    - right. left. exists v, k. split; [reflexivity|]. intros u d k' Hd Hj. destruct HW as [HW|HW]; [exfalso; exact (HW t c v k Hl E)|].
      apply (HW u d k'). apply HL. auto.
    - right. right. exists k. split; [reflexivity|]. intros u d v k' Hd Hj. destruct HW as [HW|HW]; [|exfalso; exact (HW t c k Hl E)].
      apply (HW u d v k'). apply HL. auto. }
  destruct B1 as [(t & c & v & k & Hi & Ec)|B1]; [|auto]. destruct B2 as [(u & d & k' & Hj & Ed)|B2]; [|auto].
  right. apply HL in Hi. apply HL in Hj. destruct (comm_steps s t c u d v k k' (proj1 Hi) (proj1 Hj) Ec Ed) as (s' & Hs).
  exists (EvComm t u), s'. split; [exact Hs|]. intros w [->| ->]; [apply Hi|apply Hj].
Qed.

End Steps.

Lemma access_nth {P T} (s : st P T unit) t a : nth_error (accesses s) t = Some a ->
  exists c, nth_error (main s :: thr s) t = Some c /\ access c = a.
Proof.
  unfold accesses. destruct t as [|i]; cbn [nth_error]; intro H; [inversion H; eauto|].
  rewrite nth_error_map in H. destruct (nth_error (thr s) i) as [c|]; [|discriminate]. inversion H. eauto.
Qed.

(** Who has stopped is there for ever. *)
Lemma stopped_stays {T} {C : call T} {M k D s} : forsaken C M k D s -> forall t, In t D ->
  exists c x w, nth_error (main s :: thr s) t = Some c /\ access c = Some (x, w).
Proof.
  induction 1 as [mg Hmg|k D e s s' H IH Hs Hd|k D s s' H IH Hs|k D s u x w H IH Ha]; intros t Ht.
  - destruct Ht.
  - destruct (IH t Ht) as (c & x & w & Hc & Ha). exists c, x, w. split; [|exact Ha].
    eapply tstep_other; [exact Hs|exact Hc|]. intro F. exact (Hd t F Ht).
  - destruct (IH t Ht) as (c & x & w & Hc & Ha). exists c, x, w. split; [|exact Ha]. destruct Hs. exact Hc.
  - destruct Ht as [<-|Ht]; [|exact (IH t Ht)]. destruct (access_nth s u _ Ha) as (c & Hc & E). eauto.
Qed.

Section Forsaken.
Variables (pl : plat) (tn : tuning).
Hypothesis Hpl : platOk pl.
Hypothesis Htn : tuningOk pl tn.
Context {T : Type} (C : call T).
Hypothesis HC : sortCall pl tn C.
Variable M : Z.

(** The call never returns as if nothing had happened. *)
Theorem forsaken_no_return k D s : forsaken C M k D s -> D <> [] -> ~ returned s tt.
Proof.
  intros H HD Hr. destruct D as [|t D]; [contradiction|].
  destruct (stopped_stays H t (or_introl eq_refl)) as (c & x & w & Hc & Ha).
  destruct (g_goal pl tn Hpl Htn C HC M k s (forsaken_reach H) tt Hr) as [_ Hex].
  destruct t as [|i]; cbn [nth_error] in Hc.
  - injection Hc as <-. unfold access in Ha. unfold returned in Hr. rewrite Hr in Ha. discriminate.
  - destruct (Hex c (nth_error_In _ _ Hc)) as [d r E|d d' E _]; unfold access in Ha; rewrite E in Ha; discriminate.
Qed.

Theorem forsaken_safe k D s : forsaken C M k D s ->
  ~ panicked s /\ ~ race s /\ (forall x w, In (Some (x, w)) (accesses s) -> cCells C x) /\
  Z.of_nat k <= 100 * cLen C * cLen C + 6 * cLen C + 20 /\
  (waiting D s <-> forall e s', tstep (cProcs C) e s s' -> exists t, doneBy e t /\ In t D).
Proof.
  intro H. assert (HR := forsaken_reach H).
  split; [exact (g_no_panic pl tn Hpl Htn C HC M k s HR)|]. split; [exact (g_no_race pl tn Hpl Htn C HC M k s HR)|].
  split; [intros x w; exact (g_in_bounds pl tn Hpl Htn C HC M k s HR x w)|]. split; [exact (g_steps pl tn Hpl Htn C HC M k s HR)|].
  apply waiting_stuck. exact (g_no_panic pl tn Hpl Htn C HC M k s HR).
Qed.

(** The others come to rest. *)
Theorem forsaken_rests k D s : forsaken C M k D s -> exists j s', forsaken C M (j + k) D s' /\ exec (cProcs C) M (cCells C) j s s' /\ waiting D s'.
Proof.
  set (B := Z.to_nat (100 * cLen C * cLen C + 6 * cLen C + 20)).
  enough (G : forall n k s, (B - k < n)%nat -> forsaken C M k D s ->
    exists j s', forsaken C M (j + k) D s' /\ exec (cProcs C) M (cCells C) j s s' /\ waiting D s').
  { intro H. apply (G (S (B - k)) k s); [lia|exact H]. }
  clear k s. induction n as [|n IH]; intros k s Hn H; [lia|].
  assert (HR := forsaken_reach H).
  destruct (waiting_or_steps (cProcs C) D s (g_no_panic pl tn Hpl Htn C HC M k s HR)) as [Hw|(e & s1 & Hs & Hd)].
  - exists O, s. split; [exact H|]. split; [constructor|exact Hw].
  - assert (H1 := fs_prog C M k D e s s1 H Hs Hd). assert (St := g_steps pl tn Hpl Htn C HC M (S k) s1 (forsaken_reach H1)).
    destruct (IH (S k) s1 ltac:(subst B; lia) H1) as (j & s' & H2 & He & Hw). exists (S j), s'.
    split; [replace (S j + k)%nat with (j + S k)%nat by lia; exact H2|]. split; [|exact Hw].
    replace (S j) with (j + 1)%nat by lia. eapply exec_trans; [|exact He]. eapply exec_prog; [constructor|]. eapply tstep_pstep; exact Hs.
Qed.

End Forsaken.

(** The elements: nothing is lost unless a goroutine stops in the middle of an exchange. *)
Theorem forsaken_elements pl tn T (lt : T -> T -> bool) cap n m0 M k D s : platOk pl -> tuningOk pl tn ->
  irreflexive lt -> 0 <= n <= cap -> 11 * n + 18 < 10 * intSize pl -> forsaken (lswCall pl tn lt cap n m0) M k D s ->
  exists v, Permutation (contents v (Slice 0 n)) (contents m0 (Slice 0 n)) /\
    forall x, 0 <= x < n -> ~ In (Some (x, true)) (accesses s) -> mem (sh s) x = v x.
Proof. intros Hpl Htn Hi Hn Hb H. exact (lsw_keeps pl tn T lt cap n m0 M k s Hpl Htn Hi Hn Hb (forsaken_reach H)). Qed.
