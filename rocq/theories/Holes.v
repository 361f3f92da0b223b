(** * What is in the slice while it is being sorted

    The sorters move elements by reading them into variables and writing them elsewhere.
    Here: each goroutine keeps at most one element out of the slice ("hole": a cell whose
    element is in a variable), and writes nothing but elements it read.

    [hp m kn ho Q c]: for [m] steps program [c], run by a goroutine that remembers the
    contents [kn] of some cells and has the hole [ho] (cell, missing element), keeps to these
    rules.  When it synchronises with another goroutine it has no hole and forgets [kn]. *)

From Coq Require Import List ZArith Lia Bool Permutation.
From Coq Require Import Arith.Wf_nat.
From Verif Require Import Lang SeqLogic Base Trace HappensBefore Scalar Typed Kinds Spec Lsw Swaps.
Import ListNotations.
Open Scope Z_scope.

Section Hole.
Context {P T : Type}.
Variable body : P -> cmd P T unit.

Definition kset (i : Z) (x : T) (kn : list (Z * T)) : list (Z * T) :=
  (i, x) :: filter (fun p => negb (fst p =? i)) kn.

Lemma kset_in i x kn j y : In (j, y) (kset i x kn) <-> (j = i /\ y = x) \/ (j <> i /\ In (j, y) kn).
Proof.
  unfold kset. cbn [In]. rewrite filter_In. cbn [fst]. split.
  - intros [E|[H1 H2]]; [inversion E; auto|]. right. destruct (Z.eqb_spec j i); [discriminate|auto].
  - intros [[-> ->]|[H1 H2]]; [auto|]. right. split; [exact H2|]. destruct (Z.eqb_spec j i); [contradiction|reflexivity].
Qed.

(** There is no hole, or it is filled. *)
Definition clean (kn : list (Z * T)) (ho : option (Z * T)) : Prop :=
  match ho with None => True | Some (j, b) => In (j, b) kn end.

(** Writing [x] to a cell [i] that held [y]: if there is no (unfilled) hole, then [y] is now
    missing from [i]; otherwise the hole, whose cell must hold another copy of [y], moves to
    [i].  The value [x] is the missing one or was read from some cell. *)
Definition fills (kn : list (Z * T)) (ho : option (Z * T)) (i : Z) (x a : T) : Prop :=
  exists y, In (i, y) kn /\
    match ho with None => a = y | Some (j, b) => (In (j, b) kn /\ a = y) \/ (In (j, y) kn /\ a = b) end /\
    (x = a \/ exists j, In (j, x) kn).

Fixpoint hp (m : nat) (kn : list (Z * T)) (ho : option (Z * T)) {A : Type}
  (Q : A -> list (Z * T) -> option (Z * T) -> Prop) (c : cmd P T A) {struct m} : Prop :=
  match m with
  | O => True
  | S m' =>
    match view c with
    | HRet a => Q a kn ho
    | HPanic => True
    | HTau c' => hp m' kn ho Q c'
    | HRead i k => forall x, (forall y, In (i, y) kn -> y = x) -> hp m' ((i, x) :: kn) ho Q (k x)
    | HWrite i x k => exists a, fills kn ho i x a /\ hp m' (kset i x kn) (Some (i, a)) Q k
    | HCall p k => hp m' kn ho Q (k (body p))
    | HFork p k => clean kn ho /\ hp m' [] None (fun _ => clean) (body p) /\ hp m' [] None Q k
    | HLoadMax k | HLoadGor k => forall z, hp m' kn ho Q (k z)
    | HAddGor _ k => clean kn ho /\ forall z, hp m' [] None Q (k z)
    | HRecv k => clean kn ho /\ forall z, hp m' [] None Q (k z)
    | HSend _ k => clean kn ho /\ hp m' [] None Q k
    | HMakeSv k => hp m' kn ho Q k
    end
  end.

Definition none {A} : A -> list (Z * T) -> option (Z * T) -> Prop := fun _ => clean.

Lemma hp_down m : forall {A} kn ho (Q : A -> _ -> _ -> Prop) (c : cmd P T A), hp (S m) kn ho Q c -> hp m kn ho Q c.
Proof.
  induction m as [|m IH]; intros A kn ho Q c H; [exact I|].
  remember (S m) as m1 eqn:E1. cbn [hp] in H. rewrite E1. cbn [hp]. subst m1.
  destruct (view c); auto.
  - destruct H as (h' & H1 & H2). exists h'. auto.
  - destruct H as (H1 & H2 & H3). auto.
  - destruct H; auto.
  - destruct H; auto.
  - destruct H; auto.
Qed.

Lemma hp_le m m' {A} kn ho (Q : A -> _ -> _ -> Prop) (c : cmd P T A) : (m' <= m)%nat -> hp m kn ho Q c -> hp m' kn ho Q c.
Proof. induction 1; auto. intro H1. apply IHle, hp_down. exact H1. Qed.

Lemma hp_head m {A} kn ho (Q : A -> _ -> _ -> Prop) (c c' : cmd P T A) : view c = view c' -> hp m kn ho Q c' -> hp m kn ho Q c.
Proof. intros E H. destruct m; [exact I|]. cbn [hp] in *. rewrite E. exact H. Qed.

Lemma hp_conseq m : forall {A} kn ho (Q Q' : A -> _ -> _ -> Prop) (c : cmd P T A),
  (forall a kn ho, Q a kn ho -> Q' a kn ho) -> hp m kn ho Q c -> hp m kn ho Q' c.
Proof.
  induction m as [|m IH]; intros A kn ho Q Q' c HQ H; [exact I|]. cbn [hp] in *.
  destruct (view c); eauto.
  - destruct H as (h' & H1 & H2). eauto.
  - destruct H as (H1 & H2 & H3). eauto.
  - destruct H; eauto.
  - destruct H; eauto.
  - destruct H; eauto.
Qed.

Lemma hp_ctx m : forall {A B} kn ho (Q : A -> _ -> _ -> Prop) (Q1 : B -> _ -> _ -> Prop) (ctx : cmd P T B -> cmd P T A) c,
  (forall c, match view c with HRet _ => True | h => view (ctx c) = hcont ctx h end) ->
  (forall b c m' kn ho, (S m' <= m)%nat -> Q1 b kn ho -> view c = HRet b -> hp (S m') kn ho Q (ctx c)) ->
  hp m kn ho Q1 c -> hp m kn ho Q (ctx c).
Proof.
  induction m as [|m IH]; intros A B kn ho Q Q1 ctx c HC HR H; [exact I|].
  assert (IHc : forall kn ho c, hp m kn ho Q1 c -> hp m kn ho Q (ctx c)).
  { intros kn1 ho1 c1 H1. eapply IH; [exact HC| |exact H1]. intros b c2 m' kn2 ho2 Hm Hb Hv. eapply HR; [lia|exact Hb|exact Hv]. }
  assert (HCc := HC c). cbn [hp] in H. destruct (view c) eqn:Ev; try (eapply HR; eauto; fail);
    cbn [hp]; rewrite HCc; cbn [hcont]; auto.
  - destruct H as (h' & H1 & H2). exists h'. auto.
  - destruct H as (H1 & H2 & H3). auto.
  - destruct H; auto.
  - destruct H; auto.
  - destruct H; auto.
Qed.

Lemma hp_ret m {A} kn ho (Q : A -> _ -> _ -> Prop) (a : A) : Q a kn ho -> hp m kn ho Q (Ret a : cmd P T A).
Proof. intro H. destruct m; [exact I|exact H]. Qed.

Lemma hp_panic m {A} kn ho (Q : A -> _ -> _ -> Prop) : hp m kn ho Q (Panic : cmd P T A).
Proof. destruct m; exact I. Qed.

Lemma hp_bind m {A B} kn ho (Q1 : B -> _ -> _ -> Prop) (Q : A -> _ -> _ -> Prop) (c : cmd P T B) (k : B -> cmd P T A) :
  hp m kn ho Q1 c -> (forall b kn ho m', (m' <= m)%nat -> Q1 b kn ho -> hp m' kn ho Q (k b)) -> hp m kn ho Q (Bind c k).
Proof.
  intros H HK. apply (hp_ctx m kn ho Q Q1 (fun c => Bind c k)); [| |exact H].
  - intro c0. cbn [view]. destruct (view c0); reflexivity || exact I.
  - intros b c0 m' kn0 ho0 Hm Hb Hv. apply (hp_head _ _ _ _ _ (k b)); [cbn [view]; rewrite Hv; reflexivity|]. apply HK; [exact Hm|exact Hb].
Qed.

Lemma hp_incall m {A} kn ho (Q : A -> _ -> _ -> Prop) (c : cmd P T unit) (k : cmd P T A) :
  hp m kn ho none c -> (forall m' kn ho, (m' < m)%nat -> clean kn ho -> hp m' kn ho Q k) -> hp m kn ho Q (InCall c k).
Proof.
  intros H HK. apply (hp_ctx m kn ho Q none (fun c => InCall c k)); [| |exact H].
  - intro c0. cbn [view]. destruct (view c0); reflexivity || exact I.
  - intros b c0 m' kn0 ho0 Hm E Hv. cbn [hp view]. rewrite Hv. apply HK; [lia|exact E].
Qed.

(** Loop with invariant [J]. *)
Lemma hp_loop m {A S} (J : S -> _ -> _ -> Prop) (Q : A -> _ -> _ -> Prop) (bd : S -> cmd P T (S + A)) :
  (forall s kn ho m', (m' < m)%nat -> J s kn ho ->
     hp m' kn ho (fun r kn ho => match r with inl s' => J s' kn ho | inr a => Q a kn ho end) (bd s)) ->
  forall s kn ho, J s kn ho -> hp m kn ho Q (Loop s bd).
Proof.
  induction m as [|m IH]; intros HB s kn ho Hs; [exact I|]. cbn [hp view].
  eapply hp_bind; [apply HB; [lia|exact Hs]|]. intros [s'|a] kn' ho' m' Hm Hb; [|apply hp_ret; exact Hb].
  apply (hp_le m); [exact Hm|]. apply IH; [|exact Hb]. intros s0 kn0 ho0 m0 Hm0. apply HB. lia.
Qed.

Lemma clean_cons kn ho p : clean kn ho -> clean (p :: kn) ho.
Proof. destruct ho as [[j b]|]; cbn; auto. Qed.

(** [hc m c]: started without a hole, [c] ends without one. *)
Definition hc (m : nat) {A} (c : cmd P T A) : Prop := forall kn ho, clean kn ho -> hp m kn ho none c.

Lemma hc_ret m {A} (a : A) : hc m (Ret a : cmd P T A).
Proof. intros kn ho H. apply hp_ret. exact H. Qed.

Lemma hc_panic m {A} : hc m (Panic : cmd P T A).
Proof. intros kn ho H. apply hp_panic. Qed.

Lemma hc_bind m {A B} (c : cmd P T B) (k : B -> cmd P T A) :
  hc m c -> (forall b m', (m' <= m)%nat -> hc m' (k b)) -> hc m (Bind c k).
Proof. intros H HK kn ho H0. eapply hp_bind; [apply H; exact H0|]. intros b kn' ho' m' Hm E. apply HK; [exact Hm|exact E]. Qed.

Lemma hc_loop m {A S} (bd : S -> cmd P T (S + A)) : (forall s m', (m' < m)%nat -> hc m' (bd s)) -> forall s, hc m (Loop s bd).
Proof.
  intros HB s kn ho H0. apply (hp_loop m (fun _ => clean)); [|exact H0].
  intros s' kn' ho' m' Hm H1. eapply hp_conseq; [|apply HB; [exact Hm|exact H1]]. intros [s1|a] kn1 ho1 E; exact E.
Qed.

Lemma hc_call m {A} p (k : cmd P T A) :
  (forall m', (m' < m)%nat -> hc m' (body p)) -> (forall m', (m' < m)%nat -> hc m' k) -> hc m (Call p k).
Proof.
  intros HB HK kn ho H0. destruct m as [|m]; [exact I|]. cbn [hp view]. apply hp_incall; [apply HB; [lia|exact H0]|].
  intros m' kn' ho' Hm H1. apply HK; [lia|exact H1].
Qed.

Lemma hc_read m {A} i (k : T -> cmd P T A) : (forall x m', (m' < m)%nat -> hc m' (k x)) -> hc m (Read i k).
Proof. intros H kn ho H0. destruct m; [exact I|]. cbn [hp view]. intros x _. apply H; [lia|apply clean_cons; exact H0]. Qed.

Lemma hc_fork m {A} p (k : cmd P T A) :
  (forall m', (m' < m)%nat -> hc m' (body p)) -> (forall m', (m' < m)%nat -> hc m' k) -> hc m (Fork p k).
Proof.
  intros H1 H2 kn ho H0. destruct m; [exact I|]. cbn [hp view]. split; [exact H0|].
  split; [apply H1|apply H2]; try lia; exact I.
Qed.

Lemma hc_loadmax m {A} (k : Z -> cmd P T A) : (forall z m', (m' < m)%nat -> hc m' (k z)) -> hc m (LoadMax k).
Proof. intros H kn ho H0. destruct m; [exact I|]. cbn [hp view]. intro z. apply H; [lia|exact H0]. Qed.
Lemma hc_loadgor m {A} (k : Z -> cmd P T A) : (forall z m', (m' < m)%nat -> hc m' (k z)) -> hc m (LoadGor k).
Proof. intros H kn ho H0. destruct m; [exact I|]. cbn [hp view]. intro z. apply H; [lia|exact H0]. Qed.
Lemma hc_addgor m {A} d (k : Z -> cmd P T A) : (forall z m', (m' < m)%nat -> hc m' (k z)) -> hc m (AddGor d k).
Proof. intros H kn ho H0. destruct m; [exact I|]. cbn [hp view]. split; [exact H0|]. intro z. apply H; [lia|exact I]. Qed.
Lemma hc_recv m {A} (k : Z -> cmd P T A) : (forall z m', (m' < m)%nat -> hc m' (k z)) -> hc m (Recv k).
Proof. intros H kn ho H0. destruct m; [exact I|]. cbn [hp view]. split; [exact H0|]. intro z. apply H; [lia|exact I]. Qed.
Lemma hc_makesv m {A} (k : cmd P T A) : (forall m', (m' < m)%nat -> hc m' k) -> hc m (MakeSv k).
Proof. intros H kn ho H0. destruct m; [exact I|]. cbn [hp view]. apply H; [lia|exact H0]. Qed.
Lemma hc_send m {A} v (k : cmd P T A) : (forall m', (m' < m)%nat -> hc m' k) -> hc m (Send v k).
Proof. intros H kn ho H0. destruct m; [exact I|]. cbn [hp view]. split; [exact H0|]. apply H; [lia|exact I]. Qed.

(** Code on a local array touches no element. *)
Lemma hc_local m {A U} (k : list U -> cmd P T A) :
  (forall l m', (m' < m)%nat -> hc m' (k l)) -> forall l (c : cmd P U unit), hc m (Local l c k).
Proof.
  induction m as [|m IH]; intros H l c kn ho H0; [exact I|].
  assert (IH' : forall l c, hp m kn ho none (Local l c k)) by (intros l' c'; apply IH; [intros; apply H; lia|exact H0]).
  cbn [hp view]. destruct (view c); auto; try (apply H; [lia|exact H0]).
  - destruct (lget l i); auto.
  - destruct (lset l i v); auto.
Qed.

(** Whoever is done with the elements has no hole. *)
Lemma quiet_clean (c : cmd P T unit) : quiet c -> forall kn ho, (forall m, hp m kn ho none c) -> clean kn ho.
Proof.
  induction 1 as [c a Hv|c c' Hv Hq IH|c v k Hv Hq IH|c k Hv Hq IH]; intros kn ho H.
  - assert (G := H 1%nat). cbn [hp] in G. rewrite Hv in G. exact G.
  - apply (IH kn). intro m. assert (G := H (S m)). cbn [hp] in G. rewrite Hv in G. exact G.
  - assert (G := H 1%nat). cbn [hp] in G. rewrite Hv in G. apply G.
  - assert (G := H 1%nat). cbn [hp] in G. rewrite Hv in G. apply G.
Qed.
End Hole.

(** ** Cells a goroutine accessed and nobody else can have touched since *)

Definition local (e : event) (t : nat) : Prop :=
  match e with EvStep u | EvRead u _ | EvWrite u _ => u = t | _ => False end.

Definition lately (tr : list event) (t p : nat) : Prop :=
  (exists e, nth_error tr p = Some e /\ local e t) /\
  forall q e, (p <= q)%nat -> nth_error tr q = Some e -> doneBy e t -> local e t.

Definition recent (tr : list event) (t : nat) (i : Z) (w : bool) : Prop :=
  exists p e w', lately tr t p /\ nth_error tr p = Some e /\ touches e i w' /\ (w = true -> w' = true).

Lemma hb_lately tr t p q : hb tr p q -> lately tr t p -> lately tr t q.
Proof.
  induction 1 as [i j ei ej u Hl Hi Hj Di Dj|i j u u' ej Hl Hi Hj Dj|i j u u' Hl Hi Hj|i j k H1 IH1 H2 IH2]; auto.
  - intros [(e & He & L) H]. rewrite Hi in He. inversion He; subst.
    assert (u = t) by (destruct e; cbn in *; try contradiction; congruence). subst u. split.
    + exists ej. split; [exact Hj|]. apply (H j ej); [lia|exact Hj|exact Dj].
    + intros q e' Hq. apply H. lia.
  - intros [(e & He & L) H]. rewrite Hi in He. inversion He; subst. contradiction L.
  - intros [(e & He & L) H]. rewrite Hi in He. inversion He; subst. contradiction L.
Qed.

Lemma lately_app tr t p e : lately tr t p -> (doneBy e t -> local e t) -> lately (tr ++ [e]) t p.
Proof.
  intros [(e0 & He & L) H] HL. split; [exists e0; split; [apply nth_app_old; exact He|exact L]|].
  intros q e' Hq Hn D. apply nth_app_inv in Hn. destruct Hn as [Hn|[-> ->]]; [apply (H q e' Hq Hn D)|apply HL, D].
Qed.

Lemma recent_app tr t i w e : recent tr t i w -> (doneBy e t -> local e t) -> recent (tr ++ [e]) t i w.
Proof.
  intros (p & e0 & w' & H1 & H2 & H3 & H4) HL. exists p, e0, w'. split; [apply lately_app; assumption|].
  split; [apply nth_app_old; exact H2|]. auto.
Qed.

Lemma local_unique e t u : local e t -> doneBy e u -> u = t.
Proof. destruct e; cbn; try contradiction; congruence. Qed.

Lemma touches_local e x w t : touches e x w -> doneBy e t -> local e t.
Proof. intros [[_ (u & ->)]|[_ (u & ->)]]; cbn; auto. Qed.

(** A new access by another goroutine would be a race. *)
Lemma recent_private tr t u i w e w2 : recent tr t i w -> touches e i w2 -> doneBy e u -> u <> t ->
  w = true \/ w2 = true -> dataRace (tr ++ [e]).
Proof.
  intros (p & e0 & w' & HL & H2 & H3 & H4) He Du Hne Hw.
  exists p, (length tr), e0, e, i, w', w2. split; [exact (nth_lt _ _ _ H2)|].
  split; [apply nth_app_old; exact H2|]. split; [apply nth_app_new|]. split; [exact H3|]. split; [exact He|].
  split; [destruct Hw as [Hw|Hw]; auto|]. intro Hb.
  assert (HL' : lately (tr ++ [e]) t p).
  { apply lately_app; [exact HL|]. intro D. contradiction Hne. exact (local_unique _ _ _ (touches_local _ _ _ _ He D) Du). }
  destruct (hb_lately _ _ _ _ Hb HL') as [(e' & He' & L) _]. rewrite nth_app_new in He'. inversion He'; subst.
  apply Hne. exact (local_unique _ _ _ L Du).
Qed.

(** Two goroutines cannot both have written a cell. *)
Lemma recent_apart tr t u i w w2 : recent tr t i w -> recent tr u i w2 -> w = true \/ w2 = true -> t <> u -> dataRace tr.
Proof.
  intros (p & e & w' & HL & H2 & H3 & H4) (q & f & v' & KL & K2 & K3 & K4) Hw Hne.
  destruct HL as [(e1 & He & Le) HL]. rewrite H2 in He. inversion He; subst e1. clear He.
  destruct KL as [(f1 & He & Lf) KL]. rewrite K2 in He. inversion He; subst f1. clear He.
  assert (Hpq : p <> q).
  { intros ->. rewrite H2 in K2. inversion K2; subst. apply Hne. destruct f; cbn in *; try contradiction; congruence. }
  destruct (Nat.lt_ge_cases p q) as [L|L].
  - exists p, q, e, f, i, w', v'. split; [exact L|]. split; [exact H2|]. split; [exact K2|]. split; [exact H3|].
    split; [exact K3|]. split; [destruct Hw; auto|]. intro Hb.
    destruct (hb_lately _ _ _ _ Hb (conj (ex_intro _ e (conj H2 Le)) HL)) as [(g & Hg & Lg) _].
    rewrite K2 in Hg. inversion Hg; subst. apply Hne. destruct g; cbn in *; try contradiction; congruence.
  - exists q, p, f, e, i, v', w'. split; [lia|]. split; [exact K2|]. split; [exact H2|]. split; [exact K3|].
    split; [exact H3|]. split; [destruct Hw; auto|]. intro Hb.
    destruct (hb_lately _ _ _ _ Hb (conj (ex_intro _ f (conj K2 Lf)) KL)) as [(g & Hg & Lg) _].
    rewrite H2 in Hg. inversion Hg; subst. apply Hne. destruct g; cbn in *; try contradiction; congruence.
Qed.

(** ** On the machine *)

Section Machine.
Context {P T : Type}.
Variable body : P -> cmd P T unit.

(** Steps with their events, by index of the goroutine. *)
Inductive tchange : event -> shared T -> list (cmd P T unit) -> shared T -> list (cmd P T unit) -> Prop :=
| tc_local l i n c c' h h' fs : nth_error l i = Some c -> exec_local body c h = Some (c', h', fs) ->
    tchange (Trace.label i n c) h l h' (lupd l i c' ++ fs)
| tc_stale l i c k z h : nth_error l i = Some c -> view c = HLoadGor k -> tchange (EvStep i) h l h (lupd l i (k z))
| tc_comm l i j c1 c2 v k k' h : i <> j -> nth_error l i = Some c1 -> nth_error l j = Some c2 ->
    view c1 = HSend v k -> view c2 = HRecv k' -> tchange (EvComm i j) h l h (lupd (lupd l i k) j (k' v)).

Lemma tstep_change e s s' : tstep body e s s' -> tchange e (sh s) (gors s) (sh s') (gors s').
Proof.
  destruct 1; unfold gors; cbn [main thr sh].
  - exact (tc_local (m :: ts) O (length ts) m m' s s' fs eq_refl H).
  - replace (m :: l1 ++ c' :: l2 ++ fs) with (lupd (m :: l1 ++ c :: l2) (S (length l1)) c' ++ fs).
    + apply (tc_local _ _ _ c); [apply (nth_mid (m :: l1))|exact H].
    + cbn [lupd]. rewrite lupd_mid. cbn. rewrite <- app_assoc. reflexivity.
  - replace (k' v :: l1 ++ k :: l2) with (lupd (lupd (m :: l1 ++ c :: l2) (S (length l1)) k) O (k' v)).
    + apply (tc_comm _ _ _ c m); [lia|apply (nth_mid (m :: l1))|reflexivity|assumption|assumption].
    + cbn [lupd]. rewrite lupd_mid. reflexivity.
  - replace (k :: l1 ++ k' v :: l2) with (lupd (lupd (m :: l1 ++ c :: l2) O k) (S (length l1)) (k' v)).
    + apply (tc_comm _ _ _ m c); [lia|reflexivity|apply (nth_mid (m :: l1))|assumption|assumption].
    + cbn [lupd]. rewrite lupd_mid. reflexivity.
  - replace (m :: l1 ++ k :: l2 ++ k' v :: l3) with
      (lupd (lupd (m :: l1 ++ c1 :: l2 ++ c2 :: l3) (S (length l1)) k) (S (length l1 + S (length l2))) (k' v)).
    + apply (tc_comm _ _ _ c1 c2); [lia|apply (nth_mid (m :: l1))| |assumption|assumption].
      replace (length l1 + S (length l2))%nat with (length (l1 ++ c1 :: l2)) by (rewrite !app_length; reflexivity).
      replace (m :: l1 ++ c1 :: l2 ++ c2 :: l3) with ((m :: l1 ++ c1 :: l2) ++ c2 :: l3)
        by (cbn; rewrite <- app_assoc; reflexivity). apply (nth_mid (m :: l1 ++ c1 :: l2)).
    + cbn [lupd]. rewrite lupd_mid.
      replace (l1 ++ k :: l2 ++ c2 :: l3) with ((l1 ++ k :: l2) ++ c2 :: l3) by (rewrite <- app_assoc; reflexivity).
      replace (length l1 + S (length l2))%nat with (length (l1 ++ k :: l2)) by (rewrite !app_length; reflexivity).
      rewrite lupd_mid, <- app_assoc. reflexivity.
  - replace (m :: l1 ++ k' v :: l2 ++ k :: l3) with
      (lupd (lupd (m :: l1 ++ c1 :: l2 ++ c2 :: l3) (S (length l1 + S (length l2))) k) (S (length l1)) (k' v)).
    + apply (tc_comm _ _ _ c2 c1); [lia| |apply (nth_mid (m :: l1))|assumption|assumption].
      replace (length l1 + S (length l2))%nat with (length (l1 ++ c1 :: l2)) by (rewrite !app_length; reflexivity).
      replace (m :: l1 ++ c1 :: l2 ++ c2 :: l3) with ((m :: l1 ++ c1 :: l2) ++ c2 :: l3)
        by (cbn; rewrite <- app_assoc; reflexivity). apply (nth_mid (m :: l1 ++ c1 :: l2)).
    + cbn [lupd].
      replace (l1 ++ c1 :: l2 ++ c2 :: l3) with ((l1 ++ c1 :: l2) ++ c2 :: l3) by (rewrite <- app_assoc; reflexivity).
      replace (length l1 + S (length l2))%nat with (length (l1 ++ c1 :: l2)) by (rewrite !app_length; reflexivity).
      rewrite lupd_mid, <- app_assoc. cbn [app]. rewrite lupd_mid. reflexivity.
  - exact (tc_stale (m :: ts) O m k z s eq_refl H).
  - replace (m :: l1 ++ k z :: l2) with (lupd (m :: l1 ++ c :: l2) (S (length l1)) (k z)).
    + apply (tc_stale _ _ c); [apply (nth_mid (m :: l1))|exact H].
    + cbn [lupd]. rewrite lupd_mid. reflexivity.
Qed.

Variables (M : Z) (sl : slice) (m0 : Z -> T) (s0 : st P T unit).
Notation tex := (texec body M (cellsOf sl)).
Hypothesis Hrace : forall tr s, tex tr s0 s -> ~ dataRace tr.
Hypothesis Hin : forall tr s x w, tex tr s0 s -> In (Some (x, w)) (accesses s) -> cellsOf sl x.

Definition knows := nat -> list (Z * T).
Definition holes := nat -> option (Z * T).

Record INV (tr : list event) (h : shared T) (l : list (cmd P T unit)) (kn : knows) (ho : holes) (v : Z -> T) : Prop := {
  i_hp : forall t c, nth_error l t = Some c -> forall m, hp body m (kn t) (ho t) none c;
  i_new : forall t, (length l <= t)%nat -> kn t = [] /\ ho t = None;
  i_kn : forall t i y, In (i, y) (kn t) -> cellsOf sl i /\ mem h i = y /\ recent tr t i false;
  i_ho : forall t j a, ho t = Some (j, a) -> cellsOf sl j /\ v j = a /\ recent tr t j true;
  i_eq : forall i, cellsOf sl i -> (forall t a, ho t <> Some (i, a)) -> v i = mem h i;
  i_perm : Permutation (contents v sl) (contents m0 sl);
  i_old : forall i, cellsOf sl i -> In (mem h i) (contents m0 sl)
}.

Definition fupd {X} (f : nat -> X) (t : nat) (x : X) : nat -> X := fun u => if Nat.eqb u t then x else f u.
Lemma fupd_same {X} (f : nat -> X) t x : fupd f t x t = x.
Proof. unfold fupd. rewrite Nat.eqb_refl. reflexivity. Qed.
Lemma fupd_other {X} (f : nat -> X) t x u : u <> t -> fupd f t x u = f u.
Proof. intro H. unfold fupd. destruct (Nat.eqb_spec u t); [contradiction|reflexivity]. Qed.

Lemma nth_lupd {U} (l : list U) i x a y : nth_error (lupd l i x) a = Some y ->
  (a = i /\ y = x /\ (i < length l)%nat) \/ (a <> i /\ nth_error l a = Some y).
Proof.
  revert i a. induction l as [|z l IH]; intros i a H; [destruct i, a; discriminate|].
  destruct i as [|i], a as [|a]; cbn in *.
  - inversion H; subst. left. split; [reflexivity|]. split; [reflexivity|lia].
  - right. split; [lia|exact H].
  - right. split; [lia|exact H].
  - destruct (IH i a H) as [(-> & -> & Hl)|(Hn & Hy)]; [left|right]; split; try lia; auto. split; [reflexivity|lia].
Qed.

Lemma length_lupd {U} (l : list U) i x : length (lupd l i x) = length l.
Proof. revert i. induction l as [|z l IH]; intros [|i]; cbn; auto. Qed.

(** Goroutine [t] does something that changes no element. *)
Lemma inv_plain tr e h h' l l' fs kn ho v t c c' kt ht :
  INV tr h l kn ho v -> nth_error l t = Some c -> mem h' = mem h ->
  l' = lupd l t c' ++ fs -> (forall u, doneBy e u -> u = t) ->
  (forall i y, In (i, y) kt -> cellsOf sl i /\ mem h i = y /\ recent (tr ++ [e]) t i false) ->
  (ht = ho t /\ local e t \/ ht = None /\ clean (kn t) (ho t)) ->
  (forall m, hp body m kt ht none c') -> (forall m, Forall (hp body m [] None none) fs) ->
  INV (tr ++ [e]) h' l' (fupd kn t kt) (fupd ho t ht) v.
Proof.
  intros HI Ht Hm -> De Hkt Hloc Hc Hfs.
  assert (Hlt : (t < length l)%nat) by (apply nth_error_Some; congruence).
  assert (Hoth : forall u, u <> t -> doneBy e u -> local e u) by (intros u Hu D; contradiction Hu; apply De; exact D).
  constructor.
  - intros u d Hu. destruct (Nat.lt_ge_cases u (length l)) as [L|L].
    + rewrite nth_error_app1 in Hu by (rewrite length_lupd; exact L). apply nth_lupd in Hu.
      destruct Hu as [(-> & -> & _)|(Hn & Hd)]; [rewrite !fupd_same; exact Hc|].
      rewrite !fupd_other by exact Hn. apply (i_hp _ _ _ _ _ _ HI). exact Hd.
    + destruct (i_new _ _ _ _ _ _ HI u L) as [E1 E2]. rewrite !fupd_other by lia. rewrite E1, E2.
      rewrite nth_error_app2 in Hu by (rewrite length_lupd; exact L). apply nth_error_In in Hu. intro m.
      assert (F := Hfs m). rewrite Forall_forall in F. apply F. exact Hu.
  - intros u Hu. rewrite app_length, length_lupd in Hu. rewrite !fupd_other by lia. apply (i_new _ _ _ _ _ _ HI). lia.
  - intros u i y Hiy. rewrite Hm. destruct (Nat.eq_dec u t) as [->|Hn].
    + rewrite fupd_same in Hiy. apply Hkt. exact Hiy.
    + rewrite fupd_other in Hiy by exact Hn. destruct (i_kn _ _ _ _ _ _ HI u i y Hiy) as (A & B & C).
      split; [exact A|]. split; [exact B|]. apply recent_app; [exact C|]. apply Hoth. exact Hn.
  - intros u j a Hj. destruct (Nat.eq_dec u t) as [->|Hn].
    + rewrite fupd_same in Hj. destruct Hloc as [[E L]|[E _]]; [|congruence]. rewrite E in Hj.
      destruct (i_ho _ _ _ _ _ _ HI t j a Hj) as (A & B & C). split; [exact A|]. split; [exact B|].
      apply recent_app; [exact C|]. intro D. exact L.
    + rewrite fupd_other in Hj by exact Hn. destruct (i_ho _ _ _ _ _ _ HI u j a Hj) as (A & B & C).
      split; [exact A|]. split; [exact B|]. apply recent_app; [exact C|]. apply Hoth. exact Hn.
  - intros i Hi Hh. rewrite Hm.
    assert (Hu : forall u a, u <> t -> ho u <> Some (i, a)).
    { intros u a Hn E. apply (Hh u a). rewrite fupd_other by exact Hn. exact E. }
    destruct Hloc as [[E _]|[E Cl]].
    + apply (i_eq _ _ _ _ _ _ HI i Hi). intros u a E2. destruct (Nat.eq_dec u t) as [->|Hn]; [|exact (Hu u a Hn E2)].
      apply (Hh t a). rewrite fupd_same. congruence.
    + destruct (ho t) as [[j b]|] eqn:Et.
      * cbn in Cl. destruct (Z.eq_dec j i) as [->|Hji].
        -- destruct (i_ho _ _ _ _ _ _ HI t i b Et) as (_ & -> & _). symmetry. apply (i_kn _ _ _ _ _ _ HI t i b Cl).
        -- apply (i_eq _ _ _ _ _ _ HI i Hi). intros u a E2. destruct (Nat.eq_dec u t) as [->|Hn]; [congruence|exact (Hu u a Hn E2)].
      * apply (i_eq _ _ _ _ _ _ HI i Hi). intros u a E2. destruct (Nat.eq_dec u t) as [->|Hn]; [congruence|exact (Hu u a Hn E2)].
  - apply (i_perm _ _ _ _ _ _ HI).
  - intros i Hi. rewrite Hm. apply (i_old _ _ _ _ _ _ HI i Hi).
Qed.

Lemma In_contents (w : Z -> T) i : cellsOf sl i -> In (w i) (contents w sl).
Proof.
  intro Hi. unfold contents, cellsOf in *. apply in_map_iff. exists (Z.to_nat (i - off sl)). split; [f_equal; lia|].
  apply in_seq. lia.
Qed.

(** Goroutine [t] writes. *)
Lemma inv_write tr h l kn ho v t c i x k :
  INV tr h l kn ho v -> nth_error l t = Some c -> view c = HWrite i x k -> cellsOf sl i ->
  ~ dataRace tr -> ~ dataRace (tr ++ [EvWrite t i]) ->
  exists kn' ho' v', INV (tr ++ [EvWrite t i]) (Sh (upd (mem h) i x) (ngor h) (maxg h) (chans h)) (lupd l t k ++ []) kn' ho' v'.
Proof.
  intros HI Ht Ev Hi Hr0 Hr. assert (Hlt : (t < length l)%nat) by (apply nth_error_Some; congruence).
  assert (Hall : forall m, exists a, fills (kn t) (ho t) i x a /\ hp body m (kset i x (kn t)) (Some (i, a)) none k).
  { intro m. assert (Hc := i_hp _ _ _ _ _ _ HI t c Ht (S m)). cbn [hp] in Hc. rewrite Ev in Hc. exact Hc. }
  assert (MK : forall j z, In (j, z) (kn t) -> mem h j = z) by (intros j z Hz; apply (i_kn _ _ _ _ _ _ HI t j z Hz)).
  destruct (Hall O) as (a & Hf & _).
  assert (Hk : forall m, hp body m (kset i x (kn t)) (Some (i, a)) none k).
  { intro m. destruct (Hall m) as (a' & Hf' & H). replace a with a'; [exact H|]. clear - Hf Hf' MK.
    destruct Hf as (y & Hy & Ha & _). destruct Hf' as (y' & Hy' & Ha' & _).
    apply MK in Hy, Hy'. destruct (ho t) as [[j b]|]; [|congruence].
    destruct Ha as [[A1 A2]|[A1 A2]], Ha' as [[B1 B2]|[B1 B2]]; apply MK in A1, B1; congruence. }
  destruct Hf as (y & Hy & Ha & Hx).
  destruct (i_kn _ _ _ _ _ _ HI t i y Hy) as (_ & My & Ry).
  assert (Te : touches (EvWrite t i) i true) by (right; split; [reflexivity|exists t; reflexivity]).
  assert (Kp : forall u y', u <> t -> ~ In (i, y') (kn u)).
  { intros u y' Hu Hin'. destruct (i_kn _ _ _ _ _ _ HI u i y' Hin') as (_ & _ & R).
    apply Hr. eapply recent_private; [exact R|exact Te|reflexivity|auto|auto]. }
  assert (Hp : forall u b, u <> t -> ho u <> Some (i, b)).
  { intros u b Hu E. destruct (i_ho _ _ _ _ _ _ HI u i b E) as (_ & _ & R).
    apply Hr. eapply recent_private; [exact R|exact Te|reflexivity|auto|auto]. }
  assert (Rw : recent (tr ++ [EvWrite t i]) t i true).
  { exists (length tr), (EvWrite t i), true. split; [|split; [apply nth_app_new|split; [exact Te|reflexivity]]].
    split; [exists (EvWrite t i); split; [apply nth_app_new|reflexivity]|].
    intros q e Hq Hn _. apply nth_app_inv in Hn. destruct Hn as [Hn|[_ ->]]; [apply nth_lt in Hn; lia|reflexivity]. }
  assert (Rr : forall u j w, recent tr u j w -> recent (tr ++ [EvWrite t i]) u j w).
  { intros u j w R. apply recent_app; [exact R|]. intro D. cbn in *. congruence. }
  (* the new arrangement of the elements *)
  assert (HV : exists v', v' i = a /\ Permutation (contents v' sl) (contents m0 sl) /\
    (forall u j b, u <> t -> ho u = Some (j, b) -> v' j = v j) /\
    (forall j, j <> i -> cellsOf sl j -> (forall u b, u <> t -> ho u <> Some (j, b)) -> v' j = mem h j)).
  { destruct (ho t) as [[j b]|] eqn:Et.
    - destruct (i_ho _ _ _ _ _ _ HI t j b Et) as (Cj & Vj & Rj).
      assert (Hjp : forall u b', u <> t -> ho u <> Some (j, b')).
      { intros u b' Hu E. destruct (i_ho _ _ _ _ _ _ HI u j b' E) as (_ & _ & R).
        apply Hr0. apply (recent_apart tr t u j true true); auto. }
      assert (Vi : i <> j -> v i = y).
      { intro Hij. rewrite <- My. apply (i_eq _ _ _ _ _ _ HI i Hi). intros u b' E.
        destruct (Nat.eq_dec u t) as [->|Hu]; [rewrite Et in E; inversion E; congruence|exact (Hp u b' Hu E)]. }
      assert (Vo : forall j', j' <> i -> j' <> j -> cellsOf sl j' -> (forall u b, u <> t -> ho u <> Some (j', b)) -> v j' = mem h j').
      { intros j' Hn Hj2 Hj' Hno. apply (i_eq _ _ _ _ _ _ HI j' Hj'). intros u b' E.
        destruct (Nat.eq_dec u t) as [->|Hu]; [rewrite Et in E; inversion E; congruence|exact (Hno u b' Hu E)]. }
      destruct Ha as [[Hj ->]|[Hj ->]]; apply MK in Hj.
      + exists v. split; [|split; [apply (i_perm _ _ _ _ _ _ HI)|split; [reflexivity|]]].
        * destruct (Z.eq_dec i j) as [->|Hij]; [congruence|apply Vi; exact Hij].
        * intros j' Hn Hj' Hno. destruct (Z.eq_dec j' j) as [->|Hj2]; [congruence|apply Vo; assumption].
      + exists (swapv v i j). split; [rewrite swapv_l; exact Vj|]. split; [|split].
        * rewrite (contents_swap sl v j i Cj Hi). apply (i_perm _ _ _ _ _ _ HI).
        * intros u j' b' Hu E. apply swapv_o; intros ->; [exact (Hp u b' Hu E)|exact (Hjp u b' Hu E)].
        * intros j' Hn Hj' Hno. destruct (Z.eq_dec j' j) as [->|Hj2].
          -- rewrite swapv_r, Vi by congruence. congruence.
          -- rewrite swapv_o by assumption. apply Vo; assumption.
    - subst a. exists v. split; [|split; [apply (i_perm _ _ _ _ _ _ HI)|split; [reflexivity|]]].
      + rewrite <- My. apply (i_eq _ _ _ _ _ _ HI i Hi). intros u b' E.
        destruct (Nat.eq_dec u t) as [->|Hu]; [congruence|exact (Hp u b' Hu E)].
      + intros j' Hn Hj' Hno. apply (i_eq _ _ _ _ _ _ HI j' Hj'). intros u b' E.
        destruct (Nat.eq_dec u t) as [->|Hu]; [congruence|exact (Hno u b' Hu E)]. }
  destruct HV as (v' & V1 & V2 & V3 & V4).
  exists (fupd kn t (kset i x (kn t))), (fupd ho t (Some (i, a))), v'. constructor.
  - intros u d Hu. rewrite app_nil_r in Hu. apply nth_lupd in Hu. destruct Hu as [(-> & -> & _)|(Hn & Hd)].
    + rewrite !fupd_same. exact Hk.
    + rewrite !fupd_other by exact Hn. apply (i_hp _ _ _ _ _ _ HI). exact Hd.
  - intros u Hu. rewrite app_nil_r, length_lupd in Hu. rewrite !fupd_other by lia. apply (i_new _ _ _ _ _ _ HI). exact Hu.
  - intros u j z Hz. cbn [mem]. destruct (Nat.eq_dec u t) as [->|Hn].
    + rewrite fupd_same in Hz. apply kset_in in Hz. destruct Hz as [[-> ->]|[Hn Hz]].
      * split; [exact Hi|]. split; [apply upd_same|]. destruct Rw as (p & e & w' & R). exists p, e, w'. intuition discriminate.
      * destruct (i_kn _ _ _ _ _ _ HI t j z Hz) as (A & B & C). split; [exact A|]. split; [|apply Rr; exact C].
        rewrite upd_other by exact Hn. exact B.
    + rewrite fupd_other in Hz by exact Hn. destruct (i_kn _ _ _ _ _ _ HI u j z Hz) as (A & B & C).
      split; [exact A|]. split; [|apply Rr; exact C]. rewrite upd_other; [exact B|]. intros ->. exact (Kp u z Hn Hz).
  - intros u j b Hj. destruct (Nat.eq_dec u t) as [->|Hn].
    + rewrite fupd_same in Hj. inversion Hj; subst. auto.
    + rewrite fupd_other in Hj by exact Hn. destruct (i_ho _ _ _ _ _ _ HI u j b Hj) as (A & B & C).
      split; [exact A|]. split; [rewrite (V3 u j b Hn Hj); exact B|apply Rr; exact C].
  - intros j Hj Hno. cbn [mem].
    assert (Hno' : forall u b, u <> t -> ho u <> Some (j, b)).
    { intros u b Hu E. apply (Hno u b). rewrite fupd_other by exact Hu. exact E. }
    destruct (Z.eq_dec j i) as [->|Hn].
    + contradiction (Hno t a). rewrite fupd_same. reflexivity.
    + rewrite upd_other by exact Hn. apply V4; assumption.
  - exact V2.
  - intros j Hj. cbn [mem]. destruct (Z.eq_dec j i) as [->|Hn]; [rewrite upd_same|rewrite upd_other by exact Hn; apply (i_old _ _ _ _ _ _ HI j Hj)].
    destruct Hx as [->|[j' Hj']].
    + rewrite <- V1. rewrite <- V2. apply In_contents. exact Hi.
    + destruct (i_kn _ _ _ _ _ _ HI t j' x Hj') as (A & <- & _). apply (i_old _ _ _ _ _ _ HI j' A).
Qed.

Lemma hole_at (o : option (Z * T)) i : {exists a, o = Some (i, a)} + {forall a, o <> Some (i, a)}.
Proof.
  destruct o as [[j b]|]; [|right; discriminate]. destruct (Z.eq_dec j i) as [->|H]; [left; eauto|right; congruence].
Qed.

Lemma eq_clean tr h l kn ho v : INV tr h l kn ho v -> forall t i a, ho t = Some (i, a) -> clean (kn t) (ho t) -> v i = mem h i.
Proof.
  intros HI t i a E H. rewrite E in H. cbn in H. destruct (i_ho _ _ _ _ _ _ HI t i a E) as (_ & -> & _).
  symmetry. apply (i_kn _ _ _ _ _ _ HI t i a H).
Qed.

Lemma inv_change tr e h l h' l' kn ho v : tchange e h l h' l' -> INV tr h l kn ho v ->
  ~ dataRace tr -> ~ dataRace (tr ++ [e]) -> (forall c x w, In c l -> access c = Some (x, w) -> cellsOf sl x) ->
  exists kn' ho' v', INV (tr ++ [e]) h' l' kn' ho' v'.
Proof.
  intros Hc HI Hr0 Hr HA.
  assert (KN : forall t i y, (forall u, doneBy e u -> local e u) -> In (i, y) (kn t) ->
    cellsOf sl i /\ mem h i = y /\ recent (tr ++ [e]) t i false).
  { intros t i y He H. destruct (i_kn _ _ _ _ _ _ HI t i y H) as (A & B & C). split; [exact A|]. split; [exact B|].
    apply recent_app; [exact C|apply He]. }
  destruct Hc as [l t n c c' h h' fs Ht Hx|l t c k z h Ht Ev|l t u c1 c2 x k k' h Htu Ht Hu Ev1 Ev2].
  - assert (Hh := fun m => i_hp _ _ _ _ _ _ HI t c Ht (S m)). cbn [hp] in Hh.
    assert (Ha := fun x w => HA c x w (nth_error_In _ _ Ht)). unfold access in Ha.
    unfold exec_local in Hx. unfold Trace.label in *.
    destruct (view c) eqn:Ev; try discriminate; inversion Hx; subst; clear Hx.
    3: { apply (inv_write tr h l kn ho v t c i v0 c' HI Ht Ev); auto. eapply Ha. reflexivity. }
    2: { exists (fupd kn t ((i, mem h' i) :: kn t)), (fupd ho t (ho t)), v. assert (Ci : cellsOf sl i) by (eapply Ha; reflexivity).
      eapply inv_plain; [exact HI|exact Ht|reflexivity|reflexivity|intros u D; exact D| |left; split; reflexivity| |intro; constructor].
      - intros j y [E|Hy]; [|apply KN; [intros u D; cbn in *; congruence|exact Hy]].
        inversion E; subst. split; [exact Ci|]. split; [reflexivity|].
        exists (length tr), (EvRead t j), false. split; [|split; [apply nth_app_new|split; [left; split; [reflexivity|exists t; reflexivity]|discriminate]]].
        split; [exists (EvRead t j); split; [apply nth_app_new|reflexivity]|].
        intros q e Hq Hn _. apply nth_app_inv in Hn. destruct Hn as [Hn|[_ ->]]; [apply nth_lt in Hn; lia|reflexivity].
      - intro m. apply Hh. intros y Hy. symmetry. apply (i_kn _ _ _ _ _ _ HI t i y Hy). }
    1,2,4,5,7: exists (fupd kn t (kn t)), (fupd ho t (ho t)), v;
      (eapply inv_plain; [exact HI|exact Ht|reflexivity|reflexivity|intros u D; exact D| |left; split; reflexivity| |intro; constructor]);
      [intros j y Hy; apply KN; [intros u D; cbn in *; congruence|exact Hy]|intro m; apply Hh].
    + exists (fupd kn t []), (fupd ho t None), v.
      eapply inv_plain; [exact HI|exact Ht|reflexivity|reflexivity|intros u D; exact D|intros j y []|right; split; [reflexivity|apply (Hh O)]| |].
      * intro m. apply Hh.
      * intro m. constructor; [apply Hh|constructor].
    + exists (fupd kn t []), (fupd ho t None), v.
      eapply inv_plain; [exact HI|exact Ht|reflexivity|reflexivity|intros u D; exact D|intros j y []|right; split; [reflexivity|apply (Hh O)]| |intro; constructor].
      intro m. apply Hh.
  - assert (Hh := fun m => i_hp _ _ _ _ _ _ HI t c Ht (S m)). cbn [hp] in Hh. rewrite Ev in Hh.
    exists (fupd kn t (kn t)), (fupd ho t (ho t)), v.
    eapply inv_plain; [exact HI|exact Ht|reflexivity|rewrite app_nil_r; reflexivity|intros u D; exact D| |left; split; reflexivity| |intro; constructor].
    + intros i y H. apply KN; [intros u D; cbn in *; congruence|exact H].
    + intro m. apply Hh.
  - assert (H1 := fun m => i_hp _ _ _ _ _ _ HI t c1 Ht (S m)). assert (H2 := fun m => i_hp _ _ _ _ _ _ HI u c2 Hu (S m)).
    cbn [hp] in H1, H2. rewrite Ev1 in H1. rewrite Ev2 in H2.
    assert (Lt : (t < length l)%nat) by (apply nth_error_Some; congruence).
    assert (Lu : (u < length l)%nat) by (apply nth_error_Some; congruence).
    exists (fupd (fupd kn t []) u []), (fupd (fupd ho t None) u None), v. constructor.
    + intros a d Hd. apply nth_lupd in Hd. destruct Hd as [(-> & -> & _)|(Na & Hd)].
      * rewrite !fupd_same. intro m. apply H2.
      * rewrite !(fupd_other _ u) by exact Na. apply nth_lupd in Hd. destruct Hd as [(-> & -> & _)|(Nb & Hd)].
        -- rewrite !fupd_same. intro m. apply H1.
        -- rewrite !fupd_other by exact Nb. apply (i_hp _ _ _ _ _ _ HI). exact Hd.
    + intros a Ha. rewrite !length_lupd in Ha. rewrite !fupd_other by lia. apply (i_new _ _ _ _ _ _ HI). exact Ha.
    + intros a i y Hy. destruct (Nat.eq_dec a u) as [->|Nu]; [rewrite fupd_same in Hy; contradiction|].
      rewrite fupd_other in Hy by exact Nu. destruct (Nat.eq_dec a t) as [->|Nt]; [rewrite fupd_same in Hy; contradiction|].
      rewrite fupd_other in Hy by exact Nt. destruct (i_kn _ _ _ _ _ _ HI a i y Hy) as (A & B & C).
      split; [exact A|]. split; [exact B|]. apply recent_app; [exact C|]. intros [D|D]; contradiction.
    + intros a j b Hj. destruct (Nat.eq_dec a u) as [->|Nu]; [rewrite fupd_same in Hj; discriminate|].
      rewrite fupd_other in Hj by exact Nu. destruct (Nat.eq_dec a t) as [->|Nt]; [rewrite fupd_same in Hj; discriminate|].
      rewrite fupd_other in Hj by exact Nt. destruct (i_ho _ _ _ _ _ _ HI a j b Hj) as (A & B & C).
      split; [exact A|]. split; [exact B|]. apply recent_app; [exact C|]. intros [D|D]; contradiction.
    + intros i Hi Hno. destruct (hole_at (ho t) i) as [[a Ea]|Nt].
      { apply (eq_clean tr h l kn ho v HI t i a Ea). apply (H1 O). }
      destruct (hole_at (ho u) i) as [[a Ea]|Nu].
      { apply (eq_clean tr h l kn ho v HI u i a Ea). apply (H2 O). }
      apply (i_eq _ _ _ _ _ _ HI i Hi). intros a b E.
      destruct (Nat.eq_dec a u) as [->|Eu]; [exact (Nu b E)|]. destruct (Nat.eq_dec a t) as [->|Et]; [exact (Nt b E)|].
      apply (Hno a b). rewrite !fupd_other by assumption. exact E.
    + apply (i_perm _ _ _ _ _ _ HI).
    + apply (i_old _ _ _ _ _ _ HI).
Qed.

Lemma inv_exec tr a s : tex tr a s -> a = s0 -> (exists kn ho v, INV [] (sh s0) (gors s0) kn ho v) ->
  exists kn ho v, INV tr (sh s) (gors s) kn ho v.
Proof.
  intros H Ea H0. induction H as [s|tr e s s1 s2 H IH Hs|tr s s1 s2 H IH Hs]; subst.
  - exact H0.
  - destruct (IH eq_refl) as (kn & ho & v & HI).
    apply (inv_change tr e _ _ _ _ kn ho v (tstep_change _ _ _ Hs) HI).
    + exact (Hrace _ _ H).
    + apply (Hrace _ s2). eapply texec_prog; eassumption.
    + intros c x w Hc Ha. apply (Hin tr s1 x w H). rewrite accesses_gors, <- Ha. apply in_map, Hc.
  - destruct (IH eq_refl) as (kn & ho & v & HI). exists kn, ho, v. destruct Hs as [mm ts s mem' mg' _ Hm].
    destruct HI as [A1 A2 A3 A4 A5 A6 A7]. constructor; cbn [sh mem] in *; try assumption.
    + intros t i y Hy. destruct (A3 t i y Hy) as (B1 & B2 & B3). split; [exact B1|]. split; [rewrite Hm by exact B1; exact B2|exact B3].
    + intros i Hi Hno. rewrite Hm by exact Hi. apply A5; assumption.
    + intros i Hi. rewrite Hm by exact Hi. apply A7. exact Hi.
Qed.

(** A goroutine by index: 0 is the caller. *)
Lemma keeps_most c mg0 tr s : (forall m, hc body m c) -> s0 = start c m0 mg0 -> tex tr s0 s ->
  exists v hole, Permutation (contents v sl) (contents m0 sl) /\
    (forall x, cellsOf sl x -> (forall t d, hole t = Some x -> nth_error (main s :: thr s) t = Some d -> quiet d) -> mem (sh s) x = v x) /\
    (forall x, cellsOf sl x -> In (mem (sh s) x) (contents m0 sl)).
Proof.
  intros Hc E He. destruct (inv_exec tr s0 s He eq_refl) as (kn & ho & v & HI).
  - exists (fun _ => []), (fun _ => None), m0. subst s0. constructor; cbn.
    + intros [|t] d Hd m; [|destruct t; discriminate]. inversion Hd; subst. apply Hc. exact I.
    + auto.
    + intros t i y [].
    + discriminate.
    + auto.
    + reflexivity.
    + intros i Hi. apply In_contents. exact Hi.
  - exists v, (fun t => match ho t with Some (j, _) => Some j | None => None end).
    split; [apply (i_perm _ _ _ _ _ _ HI)|]. split; [|apply (i_old _ _ _ _ _ _ HI)].
    intros x Hx Hq. symmetry.
    assert (D : forall n, (exists t a, (t < n)%nat /\ ho t = Some (x, a)) \/ (forall t a, (t < n)%nat -> ho t <> Some (x, a))).
    { induction n as [|n [IH|IH]]; [right; lia| |].
      - left. destruct IH as (t & a & Hl & Et). exists t, a. split; [lia|exact Et].
      - destruct (hole_at (ho n) x) as [[a Ea]|Nn]; [left; exists n, a; auto|].
        right. intros t a Hl. destruct (Nat.eq_dec t n) as [->|Hn]; [apply Nn|apply IH; lia]. }
    destruct (D (length (gors s))) as [(t & a & Hl & Et)|Hno].
    + destruct (nth_error (gors s) t) as [d|] eqn:Ed; [|apply nth_error_None in Ed; lia].
      apply (eq_clean tr _ _ kn ho v HI t x a Et). apply (quiet_clean body d).
      * apply (Hq t); [rewrite Et; reflexivity|exact Ed].
      * apply (i_hp _ _ _ _ _ _ HI t d Ed).
    + apply (i_eq _ _ _ _ _ _ HI x Hx). intros t a Et. destruct (Nat.lt_ge_cases t (length (gors s))) as [L|L].
      * exact (Hno t a L Et).
      * destruct (i_new _ _ _ _ _ _ HI t L) as [_ En]. congruence.
Qed.
End Machine.

Ltac hc1 :=
  match goal with
  | |- hc _ _ (Ret _) => apply hc_ret
  | |- hc _ _ Panic => apply hc_panic
  | |- hc _ _ (Loop _ _) => apply hc_loop; intros
  | |- hc _ _ (Read _ _) => apply hc_read; intros
  | |- hc _ _ (LoadMax _) => apply hc_loadmax; intros
  | |- hc _ _ (LoadGor _) => apply hc_loadgor; intros
  | |- hc _ _ (AddGor _ _) => apply hc_addgor; intros
  | |- hc _ _ (Recv _) => apply hc_recv; intros
  | |- hc _ _ (Send _ _) => apply hc_send; intros
  | |- hc _ _ (MakeSv _) => apply hc_makesv; intros
  | |- hc _ _ (let _ := _ in _) => cbv zeta
  | |- hc _ _ (match ?x with _ => _ end) => destruct x
  | |- hc _ _ (if ?x then _ else _) => destruct x
  end.

(** ** The typed programs *)

Section Slices.
Context {P T : Type}.
Variable body : P -> cmd P T unit.
Notation hh := (hp body).

Lemma hp_panicb m {A B} kn ho (Q : A -> _ -> _ -> Prop) (k : B -> cmd P T A) : hh m kn ho Q (Bind Panic k).
Proof. destruct m; exact I. Qed.

Lemma hp_get m {A} kn ho s i (Q : A -> _ -> _ -> Prop) k :
  (forall x m', (m' <= m)%nat -> (forall y, In (off s + i, y) kn -> y = x) -> hh m' ((off s + i, x) :: kn) ho Q (k x)) ->
  hh m kn ho Q (Bind (sget s i) k).
Proof.
  intro H. unfold sget. destruct (_ && _); [|apply hp_panicb].
  apply (hp_bind body m kn ho (fun x kn' ho' => kn' = (off s + i, x) :: kn /\ ho' = ho /\ forall y, In (off s + i, y) kn -> y = x)).
  - destruct m; [exact I|]. cbn [hp view]. intros x Hx. apply hp_ret. auto.
  - intros x kn' ho' m' Hm (-> & -> & Hx). apply H; assumption.
Qed.

Lemma hp_sset m kn ho s i x (Q : unit -> _ -> _ -> Prop) a :
  fills kn ho (off s + i) x a -> Q tt (kset (off s + i) x kn) (Some (off s + i, a)) -> hh m kn ho Q (sset s i x).
Proof.
  intros Hf HQ. unfold sset. destruct (_ && _); [|apply hp_panic].
  destruct m; [exact I|]. cbn [hp view]. exists a. split; [exact Hf|]. apply hp_ret. exact HQ.
Qed.

Lemma hp_set m {A} kn ho s i x (Q : A -> _ -> _ -> Prop) k a :
  fills kn ho (off s + i) x a ->
  (forall m', (m' <= m)%nat -> hh m' (kset (off s + i) x kn) (Some (off s + i, a)) Q (k tt)) ->
  hh m kn ho Q (Bind (sset s i x) k).
Proof.
  intros Hf HQ. apply (hp_bind body m kn ho (fun _ kn' ho' => kn' = kset (off s + i) x kn /\ ho' = Some (off s + i, a))).
  - apply (hp_sset m kn ho s i x _ a Hf). auto.
  - intros [] kn' ho' m' Hm (-> & ->). apply HQ. exact Hm.
Qed.

Lemma hc_get m {A} s i (k : T -> cmd P T A) : (forall x m', (m' <= m)%nat -> hc body m' (k x)) -> hc body m (Bind (sget s i) k).
Proof.
  intros H. apply hc_bind; [|exact H]. unfold sget. repeat hc1.
Qed.

(** The two halves of an exchange of [l] and [h]. *)
Lemma fills_first kn ho i j x y : clean kn ho -> In (i, y) kn -> In (j, x) kn -> fills (T := T) kn ho i x y.
Proof.
  intros Hc Hi Hj. exists y. split; [exact Hi|]. split; [|right; eauto]. destruct ho as [[j' b]|]; [left; auto|reflexivity].
Qed.

Lemma fills_second kn i j x y : In (j, x) kn -> fills (T := T) (kset i x kn) (Some (i, y)) j y y.
Proof.
  intro Hj. exists x. split; [|split; [|left; reflexivity]].
  - apply kset_in. destruct (Z.eq_dec j i); auto.
  - right. split; [apply kset_in; auto|reflexivity].
Qed.

Lemma hc_sswap m s l h : hc body m (sswap s l h).
Proof.
  intros kn ho Hc. unfold sswap. apply hp_get. intros x m1 _ Hx. apply hp_get. intros y m2 _ Hy.
  apply (hp_set m2 _ _ s l x _ _ y).
  { apply (fills_first _ _ _ (off s + h)); [apply clean_cons, clean_cons; exact Hc|left; reflexivity|right; left; reflexivity]. }
  intros m3 _. apply (hp_sset m3 _ _ s h y _ y).
  { apply fills_second. right. left. reflexivity. }
  unfold none. cbn [clean]. apply kset_in. auto.
Qed.

(** The exchange in the NaN prepass. *)
Lemma hc_swapped m {A} s l h (k : cmd P T A) kn ho x y : clean kn ho -> In (off s + l, y) kn -> In (off s + h, x) kn ->
  (forall m', hc body m' k) -> hh m kn ho none (Bind (sset s l x) (fun _ => Bind (sset s h y) (fun _ => k))).
Proof.
  intros Hc Hl Hh Hk. apply (hp_set m _ _ s l x _ _ y); [apply (fills_first _ _ _ (off s + h)); assumption|].
  intros m3 _. apply (hp_set m3 _ _ s h y _ _ y); [apply fills_second; exact Hh|].
  intros m4 _. apply Hk. cbn [clean]. apply kset_in. auto.
Qed.

Lemma hc_reslice m s l h : hc body m (reslice s l h).
Proof. unfold reslice. repeat hc1. Qed.

(** Insertion: while the gap moves down from [h] to [l], [val] is missing. *)
Lemma hc_insertion m lt s : hc body m (insertion lt s).
Proof.
  unfold insertion. apply hc_loop. intros h m' _. destruct (_ <? _); [|apply hc_ret].
  intros kn ho Hc. apply hp_get. intros val m1 _ _.
  set (moved := fun (l : Z) (kn : list (Z * T)) (ho : option (Z * T)) =>
    ho = Some (off s + (l + 1), val) /\ exists pre, In (off s + l, pre) kn /\ In (off s + (l + 1), pre) kn).
  apply (hp_bind body m1 _ _ (fun r kn ho => match r with Some l => moved l kn ho | None => clean kn ho end)).
  - apply (hp_loop body m1 (fun l kn ho => (l = h /\ clean kn ho /\ In (off s + h, val) kn) \/ (l < h /\ moved l kn ho))).
    + intros l kn1 ho1 m2 _ J. apply hp_get. intros pre m3 _ _.
      destruct (lt val pre).
      * apply (hp_set m3 _ _ s l pre _ _ val).
        { destruct J as [(-> & J1 & J2)|(J1 & -> & pre' & J2 & J3)].
          - apply (fills_first _ _ _ (off s + (h - 1))); [apply clean_cons; exact J1|right; exact J2|left; reflexivity].
          - exists pre'. split; [right; exact J2|]. split; [right; split; [right; exact J3|reflexivity]|].
            right. exists (off s + (l - 1)). left. reflexivity. }
        intros m4 _.
        assert (G : moved (l - 1) (kset (off s + l) pre ((off s + (l - 1), pre) :: kn1)) (Some (off s + l, val))).
        { split; [f_equal; f_equal; lia|]. exists pre. split.
          - apply kset_in. right. split; [lia|left; reflexivity].
          - apply kset_in. left. split; [lia|reflexivity]. }
        assert (Hl : l - 1 < h) by (destruct J as [(-> & _)|(J & _)]; lia).
        destruct (Z.eqb_spec (l - 1) 0) as [E|E]; apply hp_ret.
        -- rewrite <- E. exact G.
        -- right. split; [exact Hl|exact G].
      * destruct (Z.eqb_spec l h) as [E|E]; apply hp_ret.
        -- destruct J as [(_ & J & _)|(J & _)]; [apply clean_cons; exact J|lia].
        -- destruct J as [(J & _)|(_ & E1 & p & J1 & J2)]; [contradiction|]. split; [exact E1|]. exists p. split; right; assumption.
    + left. split; [reflexivity|]. split; [apply clean_cons; exact Hc|left; reflexivity].
  - intros [l|] kn2 ho2 m2 _ J; [|apply hp_ret; exact J].
    destruct J as (-> & pre & J1 & J2). apply (hp_set m2 _ _ s l val _ _ val).
    + exists pre. split; [exact J1|]. split; [right; auto|left; reflexivity].
    + intros m3 _. apply hp_ret. unfold none. cbn [clean]. apply kset_in. auto.
Qed.
End Slices.

Ltac hc2 :=
  match goal with
  | |- hc _ _ (Bind (sget _ _) _) => apply hc_get; intros
  | |- hc _ _ (sswap _ _ _) => apply hc_sswap
  | |- hc _ _ (reslice _ _ _) => apply hc_reslice
  | |- hc _ _ (insertion _ _) => apply hc_insertion
  | |- hc _ _ (Bind _ _) => apply hc_bind; [|intros]
  | |- _ => hc1
  end.
Ltac hc_all := repeat hc2.

Section TypedHoles.
Context {Wd : word}.
Context {T K : Type}.
Variables (kd : kind T K) (tn : tuning) (meanI : Z -> Z -> Z).
Notation bd := (body kd tn).
Notation hb := (hc bd).

Lemma hc_pivot m s n : hb m (pivot kd s n).
Proof.
  unfold pivot. destruct (minMaxSample _ _) as [[f st] l]. apply hc_bind; [unfold samples; hc_all|].
  intros smp m' _. apply hc_local. intros. hc_all.
Qed.

Lemma hc_partOne m s pv : hb m (partOne kd s pv).
Proof. unfold partOne. hc_all. Qed.
Lemma hc_partTwo m s l h pv : hb m (partTwo kd s l h pv).
Proof. unfold partTwo. hc_all. Qed.
Lemma hc_gapLow m s pv r k : hb m (gapLow kd s pv r k).
Proof. unfold gapLow. hc_all. Qed.
Lemma hc_gapHigh m s pv r k : hb m (gapHigh kd s pv r k).
Proof. unfold gapHigh. hc_all. Qed.
Lemma hc_split m s k : hb m (split s k).
Proof. unfold split. hc_all. Qed.
Lemma hc_pivotShort m s : hb m (pivotShort kd s).
Proof. unfold pivotShort. hc_all. Qed.
Lemma hc_gorFull m : hb m gorFull.
Proof. unfold gorFull. hc_all. Qed.
Lemma hc_gPart m s pv : hb m (gPartOne kd s pv).
Proof. unfold gPartOne. apply hc_bind; [apply hc_partOne|intros]. hc_all. Qed.

Lemma hc_body m : forall p, hb m (bd p).
Proof.
  induction m as [m IH] using (well_founded_induction lt_wf). intro p.
  assert (IHc : forall {A} m' q (k : cmd (proc K) T A), (m' <= m)%nat -> (forall m0, (m0 < m')%nat -> hb m0 k) -> hb m' (Lang.Call q k)).
  { intros A m' q k Hm Hk. apply hc_call; [|exact Hk]. intros m0 Hm0. apply IH. lia. }
  assert (IHf : forall {A} m' q (k : cmd (proc K) T A), (m' <= m)%nat -> (forall m0, (m0 < m')%nat -> hb m0 k) -> hb m' (Fork q k)).
  { intros A m' q k Hm Hk. apply hc_fork; [|exact Hk]. intros m0 Hm0. apply IH. lia. }
  destruct p as [s|s sv|s|s pv]; cbn [body].
  - unfold short. apply hc_loop. intros [ar|[ar aq]] m' Hm.
    + apply hc_bind; [apply hc_pivotShort|intros]. apply hc_bind; [apply hc_partOne|intros].
      apply hc_bind; [apply hc_split|]. intros [aq' ar'] m3 H3. destruct (_ <? _); [|apply hc_ret].
      apply hc_bind; [apply IHc; [lia|]|]; intros; apply hc_ret.
    + hc_all.
  - unfold long. apply hc_loop. intros ar m' Hm.
    apply hc_bind; [apply hc_pivot|intros]. apply hc_bind; [apply hc_partOne|intros].
    apply hc_bind; [apply hc_split|]. intros [aq' ar'] m3 H3. destruct (_ <=? _).
    + apply hc_bind.
      * destruct (_ <? _); [apply IHc; [lia|intros; apply hc_ret]|apply hc_insertion].
      * intros. destruct (_ <? _); [apply hc_ret|apply IHc; [lia|intros; apply hc_ret]].
    + apply hc_bind; [destruct sv; [apply hc_gorFull|apply hc_ret]|]. intros [|] m4 H4.
      * apply IHc; [lia|intros; apply hc_ret].
      * apply hc_addgor. intros. apply IHf; [lia|intros; apply hc_ret].
  - unfold gLong. apply IHc; [lia|]. intros. hc_all.
  - apply hc_gPart.
Qed.

Lemma hc_callb m {A} q (k : cmd (proc K) T A) : (forall m0, (m0 < m)%nat -> hb m0 k) -> hb m (Lang.Call q k).
Proof. intro H. apply hc_call; [intros; apply hc_body|exact H]. Qed.
Lemma hc_forkb m {A} q (k : cmd (proc K) T A) : (forall m0, (m0 < m)%nat -> hb m0 k) -> hb m (Fork q k).
Proof. intro H. apply hc_fork; [intros; apply hc_body|exact H]. Qed.

Lemma hc_partCon m s : hb m (partCon kd meanI s).
Proof.
  unfold partCon. apply hc_bind; [apply hc_pivot|intros]. cbv zeta. apply hc_bind; [apply hc_reslice|intros].
  apply hc_forkb. intros. apply hc_bind; [apply hc_partTwo|intros]. apply hc_recv. intros.
  destruct (_ <? _); [apply hc_gapLow|apply hc_gapHigh].
Qed.

Lemma hc_sort m s : hb m (sort kd tn meanI s).
Proof.
  unfold sort. cbv zeta. apply hc_bind; [hc_all|]. intros [|] m' _.
  - destruct (_ <? _); [apply hc_callb; intros; apply hc_ret|].
    destruct (_ <? _); [apply hc_callb; intros; apply hc_ret|]. apply hc_insertion.
  - unfold sortConc. apply hc_makesv. intros. apply hc_bind.
    + apply hc_loop. intros ar m2 _. apply hc_bind; [apply hc_partCon|intros].
      apply hc_bind; [apply hc_split|]. intros [aq' ar'] m3 H3. apply hc_bind.
      * destruct (_ <? _); [apply hc_addgor; intros; apply hc_forkb; intros; apply hc_ret|].
        destruct (_ <? _); [apply hc_callb; intros; apply hc_ret|apply hc_insertion].
      * intros. destruct (_ <? _); [apply hc_ret|]. apply hc_bind; [apply hc_gorFull|intros]. hc_all.
    + intros ar m2 _. apply hc_callb. intros. hc_all.
Qed.

Lemma hc_prepass m ne opt s : hb m (prepass ne opt opt s).
Proof.
  unfold prepass, nanToEnd, nanToStart. destruct (_ =? _); [|destruct (_ =? _); [|apply hc_ret]];
    (apply hc_bind; [|intros; apply hc_reslice]; apply hc_loop; intros [l h] m1 _; destruct (_ <=? _); [|apply hc_ret];
     intros kn ho Hc; apply hp_get; intros x m2 _ _; destruct (ne x); [apply hp_ret; apply clean_cons; exact Hc|];
     apply hp_get; intros y m3 _ _; destruct (ne y); [|apply hp_ret; apply clean_cons, clean_cons; exact Hc]);
    (apply hc_swapped; [apply clean_cons, clean_cons; exact Hc|cbn; auto|cbn; auto|intro; apply hc_ret]).
Qed.
End TypedHoles.

Lemma hc_sortProg pl tn opt e m s : hc (procs pl tn e) m (sortProg pl tn opt e s).
Proof.
  unfold sortProg, sortLive, procs. destruct (isFloat e); [|apply hc_sort].
  apply hc_bind; [apply hc_prepass|intros; apply hc_sort].
Qed.

(** ** The programs of Sort *)

Section LswHoles.
Context {Wd : word}.
Context {T : Type}.
Variables (lt : T -> T -> bool) (cap : Z) (tn : tuning) (meanI : Z -> Z -> Z).
Notation bd := (lswBody lt cap tn meanI).
Notation hb := (hc bd).

Lemma hc_lsw m i k r s : hb m (lsw lt cap i k r s).
Proof.
  unfold lsw. destruct (negb _); [apply hc_panic|].
  apply hc_bind; [unfold cget; repeat hc1|]. intros x m1 _. apply hc_bind; [unfold cget; repeat hc1|]. intros y m2 _.
  destruct (lt x y); [|apply hc_ret]. destruct (r =? s); [apply hc_ret|].
  intros kn ho Hc. apply (hp_get bd m2 kn ho (Slice 0 cap) s). intros a m3 _ _.
  apply (hp_get bd m3 _ ho (Slice 0 cap) r). intros b m4 _ _.
  apply (hc_swapped bd m4 (Slice 0 cap) r s); [apply clean_cons, clean_cons; exact Hc|left; reflexivity|right; left; reflexivity|intro; apply hc_ret].
Qed.

Ltac hl1 :=
  match goal with
  | |- hc _ _ (lsw _ _ _ _ _ _) => apply hc_lsw
  | |- hc _ _ (Bind _ _) => apply hc_bind; [|intros]
  | |- _ => hc1
  end.
Ltac hl_all := repeat hl1.

Lemma hc_linsertion m lo hi : hb m (lswInsertion lt cap lo hi).
Proof. unfold lswInsertion. hl_all. Qed.
Lemma hc_lpivot m a b c : hb m (lswPivot lt cap meanI a b c).
Proof. unfold lswPivot, lswSamples. destruct (minMaxSample _ _) as [[f s] l]. hl_all. Qed.
Lemma hc_lpartOne m a b c : hb m (lswPartOne lt cap a b c).
Proof. unfold lswPartOne. hl_all. Qed.
Lemma hc_lpartTwo m a b c d e : hb m (lswPartTwo lt cap a b c d e).
Proof. unfold lswPartTwo. hl_all. Qed.
Lemma hc_lgapLow m a b c d : hb m (lswGapLow lt cap a b c d).
Proof. unfold lswGapLow. hl_all. Qed.
Lemma hc_lgapHigh m a b c d : hb m (lswGapHigh lt cap a b c d).
Proof. unfold lswGapHigh. hl_all. Qed.
Lemma hc_lpivotShort m a b : hb m (lswPivotShort lt cap a b).
Proof. unfold lswPivotShort. hl_all. Qed.
Lemma hc_lgorFull m : hb m lswGorFull.
Proof. unfold lswGorFull. hl_all. Qed.
Lemma hc_lgPart m a b c : hb m (lswGPartOne lt cap a b c).
Proof. unfold lswGPartOne. apply hc_bind; [apply hc_lpartOne|intros]. hl_all. Qed.

Lemma hc_lbody m : forall p, hb m (bd p).
Proof.
  induction m as [m IH] using (well_founded_induction lt_wf). intro p.
  assert (IHc : forall {A} m' q (k : cmd lproc T A), (m' <= m)%nat -> (forall m0, (m0 < m')%nat -> hb m0 k) -> hb m' (Lang.Call q k)).
  { intros A m' q k Hm Hk. apply hc_call; [|exact Hk]. intros m0 Hm0. apply IH. lia. }
  assert (IHf : forall {A} m' q (k : cmd lproc T A), (m' <= m)%nat -> (forall m0, (m0 < m')%nat -> hb m0 k) -> hb m' (Fork q k)).
  { intros A m' q k Hm Hk. apply hc_fork; [|exact Hk]. intros m0 Hm0. apply IH. lia. }
  destruct p as [lo hi|lo hi sv|lo hi|l pv h]; cbn [lswBody].
  - unfold lswShort. apply hc_loop. intros [[lo' hi']|[[[[lo' hi'] l'] h'] no]] m' Hm.
    + apply hc_bind; [apply hc_lpivotShort|intros]. apply hc_bind; [apply hc_lpartOne|intros].
      destruct (lswSplit _ _ _) as [[[[[l' h'] lo''] hi''] n] no].
      destruct (_ <=? _); [apply IHc; [lia|]|]; intros; apply hc_ret.
    + apply hc_bind; [apply hc_linsertion|intros]. hl_all.
  - unfold lswLong. apply hc_loop. intros [lo' hi'] m' Hm.
    apply hc_bind; [apply hc_lpivot|intros]. apply hc_bind; [apply hc_lpartOne|intros].
    destruct (lswSplit _ _ _) as [[[[[l' h'] lo''] hi''] n] no].
    destruct (_ <? _).
    + apply hc_bind.
      * destruct (_ <=? _); [apply IHc; [lia|intros; apply hc_ret]|apply hc_linsertion].
      * intros. destruct (_ <=? _); [apply hc_ret|apply IHc; [lia|intros; apply hc_ret]].
    + apply hc_bind; [destruct sv; [apply hc_lgorFull|apply hc_ret]|]. intros [|] m2 H2.
      * apply IHc; [lia|intros; apply hc_ret].
      * apply hc_addgor. intros. apply IHf; [lia|intros; apply hc_ret].
  - unfold lswGLong. apply IHc; [lia|]. intros. hl_all.
  - apply hc_lgPart.
Qed.

Lemma hc_lcallb m {A} q (k : cmd lproc T A) : (forall m0, (m0 < m)%nat -> hb m0 k) -> hb m (Lang.Call q k).
Proof. intro H. apply hc_call; [intros; apply hc_lbody|exact H]. Qed.
Lemma hc_lforkb m {A} q (k : cmd lproc T A) : (forall m0, (m0 < m)%nat -> hb m0 k) -> hb m (Fork q k).
Proof. intro H. apply hc_fork; [intros; apply hc_lbody|exact H]. Qed.

Lemma hc_lpartCon m lo hi : hb m (lswPartCon lt cap meanI lo hi).
Proof.
  unfold lswPartCon. apply hc_bind; [apply hc_lpivot|intros]. cbv zeta. apply hc_lforkb. intros.
  apply hc_bind; [apply hc_lpartTwo|intros]. apply hc_recv. intros.
  destruct (_ <? _); [apply hc_lgapLow|apply hc_lgapHigh].
Qed.

Lemma hc_lswSort m n : hb m (lswSort lt cap tn meanI n).
Proof.
  unfold lswSort. cbv zeta. apply hc_bind; [hl_all|]. intros [|] m' _.
  - destruct (_ <=? _); [apply hc_lcallb; intros; apply hc_ret|].
    destruct (_ <=? _); [apply hc_lcallb; intros; apply hc_ret|].
    destruct (_ <? _); [apply hc_linsertion|apply hc_ret].
  - unfold lswSortConc. apply hc_makesv. intros. apply hc_bind.
    + apply hc_loop. intros [lo hi] m2 _. apply hc_bind; [apply hc_lpartCon|intros].
      destruct (lswSplit _ _ _) as [[[[[l' h'] lo''] hi''] n'] no]. apply hc_bind.
      * destruct (_ <=? _); [apply hc_addgor; intros; apply hc_lforkb; intros; apply hc_ret|].
        destruct (_ <=? _); [apply hc_lcallb; intros; apply hc_ret|apply hc_linsertion].
      * intros. destruct (_ <=? _); [apply hc_ret|]. apply hc_bind; [apply hc_lgorFull|intros]. hl_all.
    + intros [lo hi] m2 _. apply hc_lcallb. intros. hl_all.
Qed.
End LswHoles.
