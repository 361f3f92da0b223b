(** * Sorting calls with elements accessed in parts, under the Go memory model *)

From Coq Require Import List ZArith Lia Bool Arith Permutation.
From Verif Require Import Bytes BytesFacts Lang Trace HappensBefore Weak Scalar Typed Kinds Spec Lsw Calls Guarantee TopFacts TraceFacts WeakFacts Torn TornFacts TornTop TornWeak TornWeakFacts.
Import ListNotations.
Open Scope Z_scope.

(** States that the call can get to when elements are accessed part by part, in any order, and each read of
    a part may return any value that the Go memory model allows.  [F0]: the parts before the call. *)
Definition pweakly {T V} (np : nat) (part : T -> nat -> V) (join : (nat -> V) -> T) (C : call T) (M : Z) (F0 : Z -> nat -> V)
  (w : @pst (cP C) T unit V) : Prop :=
  (forall x q, cCells C x -> (q < np)%nat -> F0 x q = part (cInit C x) q) /\
  pwexec np part join (cProcs C) M (cCells C) F0 (cProg C) w.

(** What the caller may see in the memory after such an execution. *)
Definition pseen {T V} (np : nat) (C : call T) (F0 : Z -> nat -> V) (w : @pst (cP C) T unit V) (v : Z -> nat -> V) : Prop :=
  forall x q, cCells C x -> (q < np)%nat ->
    visible (flat np F0) (phist w) (EvRead 0 (place np x q)) (place np x q) (v x q).

(** A goroutine that has read all parts of an element. *)
Definition pread {T V} (np : nat) (C : call T) (w : @pst (cP C) T unit V) (x : Z) (f : nat -> V) : Prop :=
  exists p, In (Some (x, false), p) (claim (pmain w) :: map claim (pthr w)) /\ forall q, (q < np)%nat -> p q = Some (f q).

Section Call.
Context {T V : Type}.
Variables (pl : plat) (tn : tuning) (np : nat) (part : T -> nat -> V) (join : (nat -> V) -> T) (C : call T) (M : Z) (F0 : Z -> nat -> V).
Hypotheses (Hpl : platOk pl) (Htn : tuningOk pl tn) (HC : sortCall pl tn C) (Hjoin : decomposes np part join C).
Hypotheses (HF : forall x q, cCells C x -> (q < np)%nat -> F0 x q = part (cInit C x) q).

Notation s0 := (start (cProg C) (cInit C) 0).
Notation linked := (linked np part (cProcs C) M (cCells C) s0).

Lemma c_trace : 0 <= M -> forall tr s, texec (cProcs C) M (cCells C) tr s0 s -> ~ dataRace tr.
Proof. intros HM tr s Ht. apply (traced_norace pl tn T C M tr s [] Hpl Htn HC); [|constructor]. exists 0. split; [lia|exact Ht]. Qed.

Lemma c_linked : 0 <= M -> forall tr' s, etexec np part join (cProcs C) M (cCells C) tr' (tstart (cProg C) F0 0) s ->
  exists tr m, linked tr' s tr m.
Proof.
  intros HM tr' s H. assert (H0 : 0 <= 0 <= M) by lia.
  apply (linked_exec np part join (cProcs C) M (cCells C) (original C) (orig_join np part join C Hjoin) s0
    (c_race pl tn C M Hpl Htn HC 0 H0) (c_bound pl tn C M Hpl Htn HC 0 H0) (c_good pl tn C M Hpl Htn HC 0 H0) (c_trace HM)
    tr' _ s H (cInit C)).
  apply linked_start; [reflexivity|exact HF].
Qed.

Lemma parts_same w : (0 < np)%nat -> 0 <= M -> pwexec np part join (cProcs C) M (cCells C) F0 (cProg C) w ->
  exists s tr m, etexec np part join (cProcs C) M (cCells C) (map fst (phist w)) (tstart (cProg C) F0 0) s /\
    linked (map fst (phist w)) s tr m /\
    tmain s = pmain w /\ tthr s = pthr w /\ tgor s = pgor w /\ tchans s = pchans w /\
    forall y, cCells C (y / Z.of_nat np) -> flat np (tmem s) y = latest (flat np F0) (phist w) y.
Proof.
  intros Hnp HM Hw.
  destruct (pweak_strong np part join (cProcs C) M (cCells C) F0 (call_cells_dec pl tn T C HC) Hnp 0 (cProg C) ltac:(lia)) with (w := w)
    as (s & Ht & E1 & E2 & E3 & E4 & E5).
  - intros tr s H. destruct (c_linked HM tr s H) as (tr1 & m & _ & _ & Hno & _). exact Hno.
  - exact Hw.
  - destruct (c_linked HM _ s Ht) as (tr & m & HL). exists s, tr, m. auto 10.
Qed.

Theorem parts_weak w : (0 < np)%nat -> 0 <= M -> pwexec np part join (cProcs C) M (cCells C) F0 (cProg C) w ->
  ~ dataRace (map fst (phist w)) /\
  Z.of_nat (length (phist w)) <= (2 * Z.of_nat np + 1) * (100 * cLen C * cLen C + 6 * cLen C + 20) + Z.of_nat np /\
  view (fst (pmain w)) <> HPanic /\ (forall g, In g (pthr w) -> view (fst g) <> HPanic) /\
  (view (fst (pmain w)) = HRet tt \/ exists w', pwstep np part join (cProcs C) M (cCells C) F0 w w') /\
  (forall x f, pread np C w x f -> exists y, cCells C y /\ forall q, (q < np)%nat -> f q = part (cInit C y) q) /\
  (view (fst (pmain w)) = HRet tt -> exists v, cGoal C v /\
     (forall x, cCells C x -> exists y, cCells C y /\ v x = cInit C y) /\
     forall u, pseen np C F0 w u -> forall x q, cCells C x -> (q < np)%nat -> u x q = part (v x) q).
Proof.
  intros Hnp HM Hw. destruct (parts_same w Hnp HM Hw) as (s & tr & m & Ht & HL & E1 & E2 & E3 & E4 & E5).
  assert (Hrun := etexec_trun np part join (cProcs C) M (cCells C) _ _ _ Ht).
  assert (HT : treach np part join C M (length (map fst (phist w))) s) by (exists F0, 0; split; [lia|split; [exact HF|exact Hrun]]).
  destruct (parts_call pl tn np part join C M Hpl Htn HC Hjoin _ s HT) as (A & _ & B & _ & _ & D & _).
  rewrite map_length in B. unfold tpanicked in A. rewrite E1, E2 in A.
  split; [apply HL|]. split; [exact B|]. split; [intro H; apply A; left; exact H|].
  split; [intros g Hg H; apply A; right; eauto|]. split; [|split].
  - (* progress, in a state with an admissible MaxGor *)
    destruct s as [sm st F ng mg ch]. cbn [tmain tthr tgor tchans tmem] in *.
    assert (HT2 : treach np part join C M (length (map fst (phist w))) (TSt sm st F ng 0 ch)).
    { exists F0, 0. split; [lia|]. split; [exact HF|]. eapply trun_env; [exact Hrun|lia|reflexivity]. }
    destruct (parts_call pl tn np part join C M Hpl Htn HC Hjoin _ _ HT2) as (_ & _ & _ & [G|(s' & G)] & _).
    + left. rewrite <- E1. exact G.
    + right. eapply pweak_step; [| | | | | |exact G]; cbn [tmain tthr tgor tchans tmem tmax]; try assumption. lia.
  - intros x f (p & Hp & Hall). apply (D x f). exists p. split; [|exact Hall]. unfold claims. rewrite E1, E2. exact Hp.
  - intro Hr. assert (Hrs : treturned s tt) by (unfold treturned; rewrite E1; exact Hr).
    assert (Hrel := linked_related np part (cProcs C) M (cCells C) s0 _ _ _ _ HL).
    destruct (returned_free pl tn np part C M Hpl Htn HC 0 _ s m ltac:(lia) Hrel Hrs) as [Hg HM'].
    exists m. split; [exact Hg|].
    split; [intros x Hc; exact (c_good pl tn C M Hpl Htn HC 0 ltac:(lia) _ _ x (proj1 Hrel) Hc)|]. intros u Hu x q Hx Hq. rewrite <- (HM' x q Hx Hq), <- (flat_place np (tmem s) x q Hq).
    rewrite E5 by (rewrite place_div by exact Hq; exact Hx).
    eapply visible_last; [reflexivity| |exact (Hu x q Hx Hq)].
    destruct HL as (Htr & Hi & Hno & Hcov).
    apply (part_norace (R := unit) np _ s tr 0%nat x false q Hcov Hno); [|exact Hq|].
    + assert (Htc : traced C M tr (erase s m)) by (exists 0; split; [lia|exact Htr]).
      destruct (traced_norace pl tn T C M tr (erase s m) [] Hpl Htn HC Htc ltac:(constructor)) as [_ H].
      apply (H [EvRead 0 x] Hrs). repeat constructor. cbn. auto.
    + assert (R : reach C M (length tr) (erase s m)) by (exists 0; split; [lia|apply Hrel]).
      destruct (g_goal pl tn Hpl Htn C HC M _ _ R tt Hrs) as [_ Hth].
      intros [|i] w' p Hn; [left; reflexivity|exfalso]. unfold claims in Hn. cbn [nth_error] in Hn.
      rewrite nth_error_map in Hn. destruct (nth_error (tthr s) i) as [[c pc]|] eqn:Ei; [|discriminate]. cbn in Hn. injection Hn as Hn _. cbn [fst] in Hn.
      unfold access in Hn. apply nth_error_In in Ei. destruct (exiting_view c (Hth c (in_map fst _ _ Ei))) as [[a Ha]|[c' Ha]]; rewrite Ha in Hn; discriminate.
Qed.

End Call.

(** Whatever the call does when each part is read as it was last written, it can do here. *)
Lemma parts_weak_all {T V} np (part : T -> nat -> V) join (C : call T) M n s : (0 < np)%nat -> treach np part join C M n s ->
  exists F0 w, pweakly np part join C M F0 w /\ length (phist w) = n /\ pmain w = tmain s /\ pthr w = tthr s /\
    forall x q, cCells C x -> (q < np)%nat -> latest (flat np F0) (phist w) (place np x q) = tmem s x q.
Proof.
  intros Hnp (F0 & mg0 & Hm & HF & H). destruct (trun_etexec np part join (cProcs C) M (cCells C) n _ _ H) as (tr & Hl & He).
  destruct (pstrong_weak np part join (cProcs C) M (cCells C) F0 Hnp mg0 (cProg C) Hm tr s He) as (_ & w & G1 & G2 & G3 & G4 & _ & _ & G7).
  exists F0, w. split; [split; [exact HF|exact G1]|]. split; [rewrite <- Hl, <- G2, map_length; reflexivity|]. split; [exact G3|]. split; [exact G4|].
  intros x q Hx Hq. rewrite G7 by (rewrite place_div by exact Hq; exact Hx). apply flat_place, Hq.
Qed.

(** ** Bytes

    The call [j] in the memory [W0], one byte at a time. *)
Definition bweakly (pl : plat) (be : bool) (tn : tuning) (j : job) (W0 : bytes) (M : Z) (F0 : Z -> nat -> Z) (w : pst) : Prop :=
  (forall x o, 0 <= x < jlen j -> 0 <= o < esize pl (jety j) -> F0 x (Z.to_nat o) = W0 (jbase j + x * esize pl (jety j) + o)) /\
  pwexec (Z.to_nat (esize pl (jety j))) (bpart pl be j) (bjoin pl be j W0) (procs pl tn (jety j)) M (cellsOf (jslice j))
    F0 (cProg (jcall pl be tn j W0)) w.

(** A memory that the caller may see afterwards: the bytes of the elements as they were written, the rest as before. *)
Definition bseen (pl : plat) (be : bool) (tn : tuning) (j : job) (W0 : bytes) (F0 : Z -> nat -> Z)
  (w : @pst (cP (jcall pl be tn j W0)) (elem (jety j)) unit Z) (W : bytes) : Prop :=
  pseen (Z.to_nat (esize pl (jety j))) (jcall pl be tn j W0) F0 w
    (fun x q => W (jbase j + x * esize pl (jety j) + Z.of_nat q)) /\
  forall a, heap pl be j W0 a -> W a = W0 a.

Theorem parts_weak_bytes pl be tn j W0 M F0 w : platOk pl -> isBytes W0 -> tuningOk pl tn ->
  typedSlice pl (jety j) (viewAs pl be j W0) (jslice j) ->
  sortable (jety j) (jopt j) (contents (viewAs pl be j W0) (jslice j)) -> 0 <= M -> bweakly pl be tn j W0 M F0 w ->
  ~ dataRace (map fst (phist w)) /\ view (fst (pmain w)) <> HPanic /\ (forall g, In g (pthr w) -> view (fst g) <> HPanic) /\
  (view (fst (pmain w)) = HRet tt \/ exists w', bweakly pl be tn j W0 M F0 w' /\ length (phist w') = S (length (phist w))) /\
  (view (fst (pmain w)) = HRet tt -> forall W, bseen pl be tn j W0 F0 w W ->
     Permutation (contents (viewAs pl be j W) (jslice j)) (contents (viewAs pl be j W0) (jslice j)) /\
     inOrder (jety j) (jopt j) (contents (viewAs pl be j W) (jslice j))).
Proof.
  intros Hpl HW Htn Hty Hso HM [HB H].
  assert (HC : sortCall pl tn (jcall pl be tn j W0)) by (apply call_typed; assumption).
  assert (Pe := esize_pos pl Hpl (jety j)).
  assert (HF : forall x q, cCells (jcall pl be tn j W0) x -> (q < Z.to_nat (esize pl (jety j)))%nat ->
    F0 x q = bpart pl be j (cInit (jcall pl be tn j W0) x) q).
  { intros x q Hx Hq. cbn [jcall typedCall cInit cCells] in *. unfold cellsOf, jslice in Hx. cbn [off len] in Hx. unfold bpart, viewAs.
    rewrite byte_peek by (assumption || lia). rewrite <- HB by lia. rewrite Nat2Z.id. reflexivity. }
  destruct (parts_weak pl tn _ (bpart pl be j) (bjoin pl be j W0) (jcall pl be tn j W0) M F0 Hpl Htn HC (bytes_decompose pl be tn j W0 Hpl HW) HF w
    ltac:(lia) HM H) as (A & _ & B1 & B2 & D & _ & E).
  split; [exact A|]. split; [exact B1|]. split; [exact B2|]. split.
  { destruct D as [D|[w' D]]; [left; exact D|right]. exists w'. split; [split; [exact HB|eapply pwexec_step; [exact H|exact D]]|].
    destruct D. cbn [phist]. rewrite app_length. cbn. lia. }
  intros Hr W [HWs HWh]. destruct (E Hr) as (v & Hg & Hval & Hmem).
  assert (X : contents (viewAs pl be j W) (jslice j) = contents v (jslice j)).
  { unfold contents. apply map_ext_in. intros i Hi. apply in_seq in Hi. cbn [jslice off len] in *.
    set (x := 0 + Z.of_nat i). assert (Hx : 0 <= x < jlen j) by lia.
    assert (Hc : cellsOf (jslice j) x) by (unfold cellsOf, jslice; cbn [off len]; lia).
    destruct (Hval x Hc) as (y & Hy & Ey). rewrite Ey. cbn [jcall typedCall cInit cCells] in *. unfold viewAs.
    apply peek_copy; [exact Hpl|exact HW| |].
    - intros o Ho. assert (G := Hmem _ HWs x (Z.to_nat o) Hc ltac:(lia)). cbn beta in G. rewrite Z2Nat.id in G by lia. rewrite G, Ey.
      unfold bpart, viewAs. rewrite Z2Nat.id by lia. reflexivity.
    - intros a Ha. apply HWh. exists y. split; [unfold cellsOf, jslice in Hy; cbn [off len] in Hy; lia|exact Ha]. }
  rewrite X. exact Hg.
Qed.

(** There is such a memory if the elements do not refer to themselves. *)
Lemma bseen_some pl be tn j W0 F0 w : platOk pl -> (forall a, region pl j a -> heap pl be j W0 a -> False) ->
  exists W, bseen pl be tn j W0 F0 w W.
Proof.
  intros Hpl Hd. assert (Pe := esize_pos pl Hpl (jety j)). set (z := esize pl (jety j)) in *.
  set (L := latest (flat (Z.to_nat z) F0) (phist w)).
  exists (fun a => if (jbase j <=? a) && (a <? jbase j + jlen j * z) then L (place (Z.to_nat z) ((a - jbase j) / z) (Z.to_nat ((a - jbase j) mod z))) else W0 a).
  split.
  - intros x q Hx Hq. cbn [jcall typedCall cCells] in Hx. unfold cellsOf, jslice in Hx. cbn [off len] in Hx. fold z in Hq |- *. cbn beta.
    assert (B1 : (jbase j <=? jbase j + x * z + Z.of_nat q) = true) by (apply Z.leb_le; nia).
    assert (B2 : (jbase j + x * z + Z.of_nat q <? jbase j + jlen j * z) = true) by (apply Z.ltb_lt; nia).
    rewrite B1, B2. cbn [andb]. replace (jbase j + x * z + Z.of_nat q - jbase j) with (Z.of_nat q + x * z) by lia.
    rewrite Z.div_add, Z.mod_add, Z.div_small, Z.mod_small, Nat2Z.id by lia. apply latest_visible.
  - intros a Ha. destruct ((jbase j <=? a) && (a <? jbase j + jlen j * z)) eqn:E; [|reflexivity].
    apply andb_true_iff in E. destruct E as [E1 E2]. apply Z.leb_le in E1. apply Z.ltb_lt in E2. destruct (Hd a); [split; assumption|exact Ha].
Qed.
