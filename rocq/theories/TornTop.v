(** * Sorting calls with elements accessed in parts *)

From Coq Require Import List ZArith Lia Bool Arith Permutation.
From Verif Require Import Lang Scalar Typed Kinds Spec Lsw Calls Guarantee TopFacts Many Torn TornFacts Bytes BytesFacts.
Import ListNotations.
Open Scope Z_scope.

(** As [reach] in Calls.v: the call can get to [s] by [n] steps, each of them on at most one part of
    one element. *)
Definition treach {T V} (np : nat) (part : T -> nat -> V) (join : (nat -> V) -> T) (C : call T) (M : Z) (n : nat)
  (s : @tst (cP C) T unit V) : Prop :=
  exists F mg0, 0 <= mg0 <= M /\ (forall x q, cCells C x -> (q < np)%nat -> F x q = part (cInit C x) q) /\
    trun np part join (cProcs C) M (cCells C) n (tstart (cProg C) F mg0) s.

(** [part] and [join] are a decomposition of the elements of the collection. *)
Definition decomposes {T V} (np : nat) (part : T -> nat -> V) (join : (nat -> V) -> T) (C : call T) : Prop :=
  forall y f, cCells C y -> (forall q, (q < np)%nat -> f q = part (cInit C y) q) -> join f = cInit C y.

(** A goroutine that has read all parts of an element. *)
Definition hasRead {P T V} (np : nat) (s : @tst P T unit V) (x : Z) (f : nat -> V) : Prop :=
  exists p, In (Some (x, false), p) (claims s) /\ forall q, (q < np)%nat -> p q = Some (f q).

(** Elements in memory are elements of the collection. *)
Lemma call_values pl tn T (C : call T) M k s : platOk pl -> tuningOk pl tn -> sortCall pl tn C -> reach C M k s ->
  forall x, cCells C x -> exists y, cCells C y /\ mem (sh s) x = cInit C y.
Proof.
  intros Hpl Htn HC HR x Hx.
  assert (X : forall (sl : slice) (m0 : Z -> T) u, In u (contents m0 sl) -> exists y, cellsOf sl y /\ u = m0 y).
  { intros sl m0 u H. unfold contents in H. apply in_map_iff in H. destruct H as (j & <- & Hj). apply in_seq in Hj.
    exists (off sl + Z.of_nat j). split; [unfold cellsOf; lia|reflexivity]. }
  destruct HC as [e opt sl m0 H1 H2|T lt lq cap n m0 H1 H2 H3].
  - destruct (typed_keeps pl tn opt e sl m0 Hpl Htn H1 M k s HR) as (_ & _ & _ & _ & Hv). apply X, Hv, Hx.
  - destruct (lsw_keeps_most pl tn T lt cap n m0 M k s Hpl Htn (proj1 H1) H2 H3 HR) as (_ & _ & _ & _ & Hv).
    apply (X (Slice 0 n)), Hv, Hx.
Qed.

Section Call.
Context {T V : Type}.
Variables (pl : plat) (tn : tuning) (np : nat) (part : T -> nat -> V) (join : (nat -> V) -> T) (C : call T) (M : Z).
Hypotheses (Hpl : platOk pl) (Htn : tuningOk pl tn) (HC : sortCall pl tn C) (Hjoin : decomposes np part join C).

Definition original (v : T) : Prop := exists y, cCells C y /\ v = cInit C y.

Lemma orig_join v f : original v -> (forall q, (q < np)%nat -> f q = part v q) -> join f = v.
Proof. intros (y & Hy & ->) H. apply Hjoin; assumption. Qed.

Notation s0 mg0 := (start (cProg C) (cInit C) mg0).

Lemma c_race mg0 : 0 <= mg0 <= M -> forall k s, exec (cProcs C) M (cCells C) k (s0 mg0) s -> ~ race s.
Proof. intros Hm k s H. apply (g_no_race pl tn Hpl Htn C HC M k s). exists mg0. auto. Qed.

Lemma c_bound mg0 : 0 <= mg0 <= M -> forall k s x w, exec (cProcs C) M (cCells C) k (s0 mg0) s -> In (Some (x, w)) (accesses s) -> cCells C x.
Proof. intros Hm k s x w H. apply (g_in_bounds pl tn Hpl Htn C HC M k s). exists mg0. auto. Qed.

Lemma c_good mg0 : 0 <= mg0 <= M -> forall k s x, exec (cProcs C) M (cCells C) k (s0 mg0) s -> cCells C x -> original (mem (sh s) x).
Proof. intros Hm k s x H. apply (call_values pl tn T C M k s Hpl Htn HC). exists mg0. auto. Qed.

Notation rel mg0 := (related np part (cProcs C) M (cCells C) (s0 mg0)).

Lemma c_sim mg0 : 0 <= mg0 <= M -> forall n s s', trun np part join (cProcs C) M (cCells C) n s s' -> forall k m, rel mg0 k s m ->
  exists j m', rel mg0 (j + k) s' m' /\ exec (cProcs C) M (cCells C) j (erase s m) (erase s' m') /\
    (n + pending np s <= (np + 1) * j + pending np s')%nat.
Proof.
  intros Hm n s s' H k m. apply (trun_sim np part join (cProcs C) M (cCells C) original orig_join (s0 mg0)
    (c_race mg0 Hm) (c_bound mg0 Hm) (c_good mg0 Hm) n s s' H).
Qed.

(** Goroutines of a call that has returned access nothing. *)
Lemma returned_free mg0 k s m : 0 <= mg0 <= M -> rel mg0 k s m -> treturned s tt ->
  cGoal C m /\ forall x q, cCells C x -> (q < np)%nat -> tmem s x q = part (m x) q.
Proof.
  intros Hm [He Hi] Hr. assert (R : reach C M k (erase s m)) by (exists mg0; auto).
  destruct (g_goal pl tn Hpl Htn C HC M k _ R tt Hr) as [Hg Ht]. split; [exact Hg|].
  intros x q Hx Hq. apply (sim_memory np part (cCells C) _ _ _ x q Hi); [|exact Hx|exact Hq].
  intros v p [E|E].
  - unfold treturned in Hr. unfold gact, act in E. rewrite Hr in E. discriminate.
  - apply in_map_iff in E. destruct E as ([c p'] & E & Hc). unfold gact, act in E. cbn [fst snd] in E.
    destruct (exiting_view c (Ht c (in_map fst _ _ Hc))) as [[a Ha]|[c' Ha]]; rewrite Ha in E; discriminate.
Qed.

Theorem parts_call n s : treach np part join C M n s ->
  ~ tpanicked s /\ ~ tornRace np s /\
  Z.of_nat n <= (2 * Z.of_nat np + 1) * (100 * cLen C * cLen C + 6 * cLen C + 20) + Z.of_nat np /\
  (treturned s tt \/ exists s', tstep np part join (cProcs C) s s') /\
  (forall s', tstep np part join (cProcs C) s s' -> forall x q, ~ cCells C x -> tmem s' x q = tmem s x q) /\
  (forall x f, hasRead np s x f -> exists y, cCells C y /\ forall q, (q < np)%nat -> f q = part (cInit C y) q) /\
  (treturned s tt ->
     (exists w, cGoal C w /\ (forall x, cCells C x -> exists y, cCells C y /\ w x = cInit C y) /\
        forall x q, cCells C x -> (q < np)%nat -> tmem s x q = part (w x) q) /\
     (forall j s', trun np part join (cProcs C) M (cCells C) j s s' ->
        treturned s' tt /\ forall x q, cCells C x -> (q < np)%nat -> tmem s' x q = tmem s x q)).
Proof.
  intros (F & mg0 & Hm & HF & Hrun).
  assert (R0 : rel mg0 0 (tstart (cProg C) F mg0) (cInit C)) by (apply related_start; [reflexivity|exact HF]).
  destruct (c_sim mg0 Hm _ _ _ Hrun _ _ R0) as (k & m & Hrel & He & Hn).
  assert (Hx : exec (cProcs C) M (cCells C) (k + 0) (s0 mg0) (erase s m)) by apply Hrel.
  assert (R : reach C M (k + 0) (erase s m)) by (exists mg0; auto).
  split; [intro H; apply (g_no_panic pl tn Hpl Htn C HC M _ _ R), sim_panicked, H|].
  split; [intro H; exact (g_no_race pl tn Hpl Htn C HC M _ _ R (sim_race np s m H))|].
  split.
  { assert (B := g_steps pl tn Hpl Htn C HC M _ _ R). assert (L := pending_le (R := unit) np s).
    assert (K := exec_threads _ _ _ _ _ _ He). cbn [erase thr tthr tstart] in K. rewrite map_length in K. cbn [map length] in K. clear - Hn B L K.
    set (b := 100 * cLen C * cLen C + 6 * cLen C + 20) in *.
    assert (H1 : (n <= (np + 1) * k + np * S k)%nat) by nia. apply Nat2Z.inj_le in H1. rewrite Nat2Z.inj_add, !Nat2Z.inj_mul in H1.
    rewrite Nat2Z.inj_add, Nat2Z.inj_succ in H1. assert (Z.of_nat k <= b) by lia. nia. }
  split.
  { destruct (g_progress pl tn Hpl Htn C HC M _ _ R) as [[[] H]|[s' H]]; [left; exact H|right]. eapply sim_progress, H. }
  split.
  { intros s' Hs x q Hx1. eapply (tstep_frame np part join (cProcs C) M (cCells C) (s0 mg0) (c_bound mg0 Hm) _ s s' m Hrel Hs). left. exact Hx1. }
  split.
  { intros x f (p & Hp & Hall). destruct Hrel as [_ Hi]. destruct Hi as [G _].
    assert (Hg : In (Some (x, None), p) (gors s)).
    { assert (E : forall A (c : cmd (cP C) T A), access c = Some (x, false) -> act c = Some (x, None)).
      { intros A c. unfold access, act. destruct (view c); intro E; try discriminate. injection E as ->. reflexivity. }
      destruct Hp as [Hp|Hp]; [left|right].
      - unfold claim in Hp. injection Hp as H1 H2. unfold gact. rewrite (E _ _ H1), H2. reflexivity.
      - apply in_map_iff in Hp. destruct Hp as (g & Hp & Hin). apply in_map_iff. exists g. split; [|exact Hin].
        unfold claim in Hp. injection Hp as H1 H2. unfold gact. rewrite (E _ _ H1), H2. reflexivity. }
    assert (Hc : cCells C x) by (eapply (in_bound (cProcs C) M (cCells C) (s0 mg0) (c_bound mg0 Hm) s m _ (Some (x, None), p)); [exact Hx|exact Hg|reflexivity]).
    destruct (c_good mg0 Hm _ _ x Hx Hc) as (y & Hy & E). cbn [erase sh mem] in E. exists y. split; [exact Hy|].
    intros q Hq. destruct (G _ Hg q (f q) (Hall q Hq)) as [_ D]. cbn [fst] in D. rewrite <- E. exact D. }
  intro Hr. destruct (returned_free mg0 _ s m Hm Hrel Hr) as [Hg HM]. split.
  - exists m. split; [exact Hg|]. split; [|exact HM]. intros x Hc. exact (c_good mg0 Hm _ _ x Hx Hc).
  - intros j s' Hj. destruct (c_sim mg0 Hm _ _ _ Hj _ _ Hrel) as (k' & m' & Hrel' & He' & _).
    destruct (g_after pl tn Hpl Htn C HC M _ _ R tt Hr _ _ He') as (Hr' & _ & Em). split; [exact Hr'|].
    intros x q Hc Hq. destruct (returned_free mg0 _ s' m' Hm Hrel' Hr') as [_ HM']. rewrite HM, HM' by assumption.
    f_equal. exact (Em x Hc).
Qed.

(** Whatever the call does with whole elements, it can do in parts. *)
Theorem parts_all k s F : reach C M k s -> (forall x q, cCells C x -> (q < np)%nat -> F x q = part (cInit C x) q) ->
  exists n F', treach np part join C M n (inParts s F') /\ forall x q, cCells C x -> (q < np)%nat -> F' x q = part (mem (sh s) x) q.
Proof.
  intros (mg0 & Hm & He) HF.
  destruct (exec_whole np part join (cProcs C) M (cCells C) original orig_join (s0 mg0) (c_bound mg0 Hm) (c_good mg0 Hm) k s F He HF) as (n & F' & H & W).
  exists n, F'. split; [|exact W]. exists F, mg0. split; [exact Hm|]. split; [exact HF|exact H].
Qed.

End Call.

(** Two goroutines writing, each having written one part. *)
Lemma parts_torn {T V} pl tn np (part : T -> nat -> V) join (C : call T) M k s F l1 c l2 x v k1 y u k2 q1 q2 :
  platOk pl -> tuningOk pl tn -> sortCall pl tn C -> decomposes np part join C -> reach C M k s ->
  (forall x q, cCells C x -> (q < np)%nat -> F x q = part (cInit C x) q) ->
  thr s = l1 ++ c :: l2 -> view (main s) = HWrite x v k1 -> view c = HWrite y u k2 -> (q1 < np)%nat -> (q2 < np)%nat -> x <> y ->
  exists n st, treach np part join C M n st /\
    (exists p, nth_error (claims st) 0 = Some (Some (x, true), p) /\ p q1 = Some (part v q1) /\ forall q, q <> q1 -> p q = None) /\
    (exists p, nth_error (claims st) (S (length l1)) = Some (Some (y, true), p) /\ p q2 = Some (part u q2) /\ forall q, q <> q2 -> p q = None) /\
    tmem st x q1 = part v q1 /\ (forall q, (q < np)%nat -> q <> q1 -> tmem st x q = part (mem (sh s) x) q) /\
    tmem st y q2 = part u q2 /\ (forall q, (q < np)%nat -> q <> q2 -> tmem st y q = part (mem (sh s) y) q).
Proof.
  intros Hpl Htn HC Hj HR HF Et Hv Hu Hq1 Hq2 Hxy.
  assert (Hx : cCells C x) by (apply (g_in_bounds pl tn Hpl Htn C HC M k s HR x true); left; unfold access; rewrite Hv; reflexivity).
  assert (Hy : cCells C y).
  { apply (g_in_bounds pl tn Hpl Htn C HC M k s HR y true). right. rewrite Et, map_app. apply in_or_app. right. left. unfold access. rewrite Hu. reflexivity. }
  destruct (parts_all pl tn np part join C M Hpl Htn HC Hj k s F HR HF) as (n & F' & (F0 & mg0 & Hm & HF0 & Hrun) & HW).
  unfold inParts in Hrun. rewrite Et, map_app in Hrun. cbn [map] in Hrun.
  eapply trun_prog in Hrun; [|eapply ts_main, (tl_write np part join (cProcs C) _ (main s) idle F' _ _ x v k1 q1 Hv Hq1 eq_refl)].
  cbn [map] in Hrun. rewrite app_nil_r in Hrun.
  eapply trun_prog in Hrun; [|eapply ts_thr, (tl_write np part join (cProcs C) _ c idle _ _ _ y u k2 q2 Hu Hq2 eq_refl)].
  cbn [map] in Hrun. rewrite app_nil_r in Hrun.
  eexists _, _. split; [exists F0, mg0; split; [exact Hm|]; split; [exact HF0|exact Hrun]|].
  cbn [claims tmain tthr tmem nth_error].
  split.
  { exists (pset idle q1 (part v q1)). unfold claim, access. cbn [fst snd]. rewrite Hv. split; [reflexivity|]. unfold pset. rewrite Nat.eqb_refl.
    split; [reflexivity|]. intros q Hq. destruct (Nat.eqb_spec q q1); [tauto|reflexivity]. }
  split.
  { exists (pset idle q2 (part u q2)). split.
    - rewrite map_app, nth_error_app2; rewrite !map_length; [|lia]. rewrite Nat.sub_diag. cbn [map nth_error]. unfold claim, access. cbn [fst snd]. rewrite Hu. reflexivity.
    - unfold pset. rewrite Nat.eqb_refl. split; [reflexivity|]. intros q Hq. destruct (Nat.eqb_spec q q2); [tauto|reflexivity]. }
  unfold mset. rewrite !Z.eqb_refl, !Nat.eqb_refl. destruct (Z.eqb_spec x y) as [|_]; [tauto|]. destruct (Z.eqb_spec y x) as [e|_]; [destruct (Hxy (eq_sym e))|]. cbn [andb].
  split; [reflexivity|]. split; [|split; [reflexivity|]].
  - intros q Hq Hn. destruct (Nat.eqb_spec q q1); [tauto|]. apply HW; assumption.
  - intros q Hq Hn. destruct (Nat.eqb_spec q q2); [tauto|]. apply HW; assumption.
Qed.

(** ** Bytes

    The call [j] in the memory [W0], one byte at a time. *)
Section Bytes.
Variables (pl : plat) (be : bool) (tn : tuning) (j : job) (W0 : bytes).

Definition bpart (x : elem (jety j)) (q : nat) : Z := byteOf pl be (jety j) x (Z.of_nat q).
Definition bjoin (f : nat -> Z) : elem (jety j) :=
  build (jety j) W0 (fun k => load be (wsize pl (jety j)) (fun a => f (Z.to_nat a)) (k * wsize pl (jety j))).

Definition breach (M : Z) (n : nat) (s : tst) : Prop :=
  exists F mg0, 0 <= mg0 <= M /\
    (forall x o, 0 <= x < jlen j -> 0 <= o < esize pl (jety j) -> F x (Z.to_nat o) = W0 (jbase j + x * esize pl (jety j) + o)) /\
    trun (Z.to_nat (esize pl (jety j))) bpart bjoin (procs pl tn (jety j)) M (cellsOf (jslice j)) n
      (tstart (cProg (jcall pl be tn j W0)) F mg0) s.

Hypotheses (Hpl : platOk pl) (HW : isBytes W0).

Lemma bytes_decompose : decomposes (Z.to_nat (esize pl (jety j))) bpart bjoin (jcall pl be tn j W0).
Proof.
  intros y f Hy Hf. cbn [jcall typedCall cCells cInit] in *. unfold viewAs in *.
  assert (Pw := wsize_pos pl Hpl (jety j)). unfold bjoin.
  unfold peek at 1. apply build_ext. intros k Hk. unfold load. apply sumTo_ext. intros i Hi.
  assert (Q := pos_range be (wsize pl (jety j)) i ltac:(lia)).
  assert (I := word_in pl (jety j) k _ Hk Q). rewrite Hf by lia. unfold bpart. rewrite Z2Nat.id by lia.
  rewrite byte_peek by assumption. f_equal. lia.
Qed.

Lemma breach_treach M n s : breach M n s -> treach (Z.to_nat (esize pl (jety j))) bpart bjoin (jcall pl be tn j W0) M n s.
Proof.
  intros (F & mg0 & Hm & HF & H). exists F, mg0. split; [exact Hm|]. split; [|exact H].
  intros x q Hx Hq. cbn [jcall typedCall cInit cCells] in *. unfold cellsOf, jslice in Hx. cbn [off len] in Hx. unfold bpart, viewAs.
  rewrite byte_peek by (assumption || lia). rewrite <- HF by lia. rewrite Nat2Z.id. reflexivity.
Qed.

Theorem parts_bytes M n s : tuningOk pl tn -> typedSlice pl (jety j) (viewAs pl be j W0) (jslice j) ->
  sortable (jety j) (jopt j) (contents (viewAs pl be j W0) (jslice j)) -> breach M n s ->
  ~ tpanicked s /\ ~ tornRace (Z.to_nat (esize pl (jety j))) s /\
  (treturned s tt \/ exists s', tstep (Z.to_nat (esize pl (jety j))) bpart bjoin (procs pl tn (jety j)) s s') /\
  (treturned s tt -> forall W,
     (forall x o, 0 <= x < jlen j -> 0 <= o < esize pl (jety j) -> W (jbase j + x * esize pl (jety j) + o) = tmem s x (Z.to_nat o)) ->
     (forall a, heap pl be j W0 a -> W a = W0 a) ->
     Permutation (contents (viewAs pl be j W) (jslice j)) (contents (viewAs pl be j W0) (jslice j)) /\
     inOrder (jety j) (jopt j) (contents (viewAs pl be j W) (jslice j))).
Proof.
  intros Htn Hty Hso H. apply breach_treach in H.
  assert (HC : sortCall pl tn (jcall pl be tn j W0)) by (apply call_typed; assumption).
  destruct (parts_call pl tn _ bpart bjoin (jcall pl be tn j W0) M Hpl Htn HC bytes_decompose n s H) as (A & B & _ & D & _ & _ & E).
  split; [exact A|]. split; [exact B|]. split; [exact D|].
  intros Hr W HWs HWh. destruct (E Hr) as ((w & Hg & Hval & Hmem) & _).
  assert (X : contents (viewAs pl be j W) (jslice j) = contents w (jslice j)).
  { unfold contents. apply map_ext_in. intros i Hi. apply in_seq in Hi. cbn [jslice off len] in *.
    set (x := 0 + Z.of_nat i). assert (Hx : 0 <= x < jlen j) by lia.
    assert (Hc : cellsOf (jslice j) x) by (unfold cellsOf, jslice; cbn [off len]; lia).
    destruct (Hval x Hc) as (y & Hy & Ey). rewrite Ey. cbn [jcall typedCall cInit cCells] in *. unfold viewAs.
    apply peek_copy; [exact Hpl|exact HW| |].
    - intros o Ho. rewrite HWs by assumption. rewrite Hmem by (assumption || lia). rewrite Ey. unfold bpart, viewAs. rewrite Z2Nat.id by lia. reflexivity.
    - intros a Ha. apply HWh. exists y. split; [unfold cellsOf, jslice in Hy; cbn [off len] in Hy; lia|exact Ha]. }
  rewrite X. exact Hg.
Qed.

End Bytes.
