(** * Calls on slices of any types in one memory of bytes *)

From Coq Require Import List ZArith Lia Bool Arith Permutation.
From Verif Require Import Lang Scalar Typed Kinds Spec Calls Guarantee TopFacts Many Bytes.
Import ListNotations.
Open Scope Z_scope.

(** ** Words *)

Lemma pow256 n : 0 <= n -> 0 < 256 ^ n.
Proof. intro H. apply Z.pow_pos_nonneg; lia. Qed.

Lemma sumTo_ext f g n : (forall i, 0 <= i < Z.of_nat n -> f i = g i) -> sumTo f n = sumTo g n.
Proof.
  induction n as [|n IH]; intro H; cbn [sumTo]; [reflexivity|]. rewrite IH by (intros; apply H; lia).
  rewrite H by lia. reflexivity.
Qed.

Lemma sumTo_range f n : (forall i, 0 <= f i < 256) -> 0 <= sumTo f n < 256 ^ Z.of_nat n.
Proof.
  intro H. induction n as [|n IH]; cbn [sumTo]; [simpl; lia|].
  rewrite Nat2Z.inj_succ, Z.pow_succ_r by lia. specialize (H (Z.of_nat n)). nia.
Qed.

Lemma sumTo_digits v n : 0 <= v -> sumTo (digit v) n = v mod 256 ^ Z.of_nat n.
Proof.
  intro Hv. induction n as [|n IH]; cbn [sumTo]; [symmetry; apply Z.mod_1_r|].
  rewrite IH. unfold digit. rewrite Nat2Z.inj_succ, Z.pow_succ_r by lia.
  assert (P := pow256 (Z.of_nat n) ltac:(lia)).
  rewrite (Z.mul_comm 256). rewrite Z.rem_mul_r by lia. lia.
Qed.

Lemma sumTo_digit f n i : (forall i, 0 <= f i < 256) -> 0 <= i < Z.of_nat n -> digit (sumTo f n) i = f i.
Proof.
  intros Hf. induction n as [|n IH]; intro Hi; [lia|]. cbn [sumTo]. unfold digit in *.
  assert (P := pow256 (Z.of_nat n) ltac:(lia)). assert (R := sumTo_range f n Hf).
  destruct (Z.eq_dec i (Z.of_nat n)) as [->|Ne].
  - rewrite Z.div_add by lia. rewrite Z.div_small by lia. apply Z.mod_small. apply Hf.
  - replace (256 ^ Z.of_nat n) with (256 ^ (Z.of_nat n - i - 1) * 256 * 256 ^ i).
    + rewrite Z.mul_assoc, Z.div_add by (assert (P' := pow256 i ltac:(lia)); lia).
      rewrite Z.mul_assoc, Z.mod_add by lia. apply IH. lia.
    + rewrite <- Z.mul_assoc, <- Z.pow_succ_r, <- Z.pow_add_r by lia. f_equal. lia.
Qed.

Lemma pos_range be w i : 0 <= i < w -> 0 <= pos be w i < w.
Proof. unfold pos. destruct be; lia. Qed.

Lemma pos_pos be w i : pos be w (pos be w i) = i.
Proof. unfold pos. destruct be; lia. Qed.

Lemma load_range be w W a : isBytes W -> 0 <= w -> 0 <= load be w W a < 256 ^ w.
Proof. intros HW Hw. unfold load. rewrite <- (Z2Nat.id w) at 3 by lia. apply sumTo_range. intro i. apply HW. Qed.

Lemma load_ext be w W W' a : (forall o, 0 <= o < w -> W' (a + o) = W (a + o)) -> load be w W' a = load be w W a.
Proof.
  intro H. apply sumTo_ext. intros i Hi. apply H, pos_range. lia.
Qed.

Lemma load_digits be w W a v : 0 <= v < 256 ^ w -> 0 <= w -> (forall o, 0 <= o < w -> W (a + o) = digit v (pos be w o)) ->
  load be w W a = v.
Proof.
  intros Hv Hw H. unfold load. rewrite (sumTo_ext _ (digit v)).
  - rewrite sumTo_digits by lia. rewrite Z2Nat.id by lia. apply Z.mod_small, Hv.
  - intros i Hi. rewrite H by (apply pos_range; lia). rewrite pos_pos. reflexivity.
Qed.

Lemma digit_load be w W a o : isBytes W -> 0 <= o < w -> digit (load be w W a) (pos be w o) = W (a + o).
Proof.
  intros HW Ho. unfold load. rewrite sumTo_digit; [|intro; apply HW|assert (P := pos_range be w o Ho); lia].
  rewrite pos_pos. reflexivity.
Qed.

Lemma span_ext W W' p n : (forall a, p <= a < p + n -> W' a = W a) -> span W' p n = span W p n.
Proof. intro H. unfold span. apply map_ext_in. intros i Hi. apply in_seq in Hi. apply H. lia. Qed.

Lemma span_len W p n : 0 <= n -> blen (span W p n) = n.
Proof. intro H. unfold blen, span. rewrite map_length, seq_length. lia. Qed.

(** ** Elements *)

Section Layout.
Variables (pl : plat) (be : bool).
Hypothesis Hpl : platOk pl.

Lemma wsize_pos e : 0 < wsize pl e.
Proof. destruct Hpl as [[H|H] _]; destruct e; cbn; lia. Qed.

Lemma nwords_pos e : 0 < nwords e <= 3.
Proof. destruct e; cbn; lia. Qed.

Lemma esize_pos e : 0 < esize pl e.
Proof. unfold esize. assert (A := wsize_pos e). assert (B := nwords_pos e). nia. Qed.

Lemma word_in e k o : 0 <= k < nwords e -> 0 <= o < wsize pl e -> 0 <= k * wsize pl e + o < esize pl e.
Proof. unfold esize. nia. Qed.

Lemma build_ext e W w w' : (forall k, 0 <= k < nwords e -> w' k = w k) -> build e W w' = build e W w.
Proof.
  intro H. assert (H0 : w' 0 = w 0) by (apply H; assert (P := nwords_pos e); lia).
  destruct e; cbn in *; try exact H0; rewrite ?H0, ?(H 1), ?(H 2) by lia; reflexivity.
Qed.

(** The words of an element in memory. *)
Lemma word_peek e W a k : isBytes W -> 0 <= k < nwords e ->
  wordOf e (peek pl be e W a) k = load be (wsize pl e) W (a + k * wsize pl e).
Proof.
  intros HW Hk. assert (L := fun b => proj1 (load_range be (wsize pl e) W b HW (Z.lt_le_incl _ _ (wsize_pos e)))).
  unfold peek. destruct e; cbn [build wordOf nwords] in *;
    try (replace k with 0 by lia; reflexivity);
    repeat (match goal with |- context [?x =? ?y] => destruct (Z.eqb_spec x y); [subst k|] end);
    cbn [sptr sbytes bptr bbytes bcap aptr alen acap]; rewrite ?span_len by apply L; try reflexivity;
    try (replace k with 1 by lia; reflexivity); try (replace k with 2 by lia; reflexivity).
Qed.

(** What an element refers to does not depend on memory but for its own words. *)
Lemma peek_ext e W W' a : isBytes W ->
  (forall o, 0 <= o < esize pl e -> W' (a + o) = W (a + o)) ->
  (forall b, refers e (peek pl be e W a) b -> W' b = W b) ->
  peek pl be e W' a = peek pl be e W a.
Proof.
  intros HW Hw Hr.
  assert (E : forall k, 0 <= k < nwords e -> load be (wsize pl e) W' (a + k * wsize pl e) = load be (wsize pl e) W (a + k * wsize pl e)).
  { intros k Hk. apply load_ext. intros o Ho. rewrite <- Z.add_assoc. apply Hw, word_in; assumption. }
  unfold peek in *. rewrite (build_ext e W' (fun k => load be (wsize pl e) W (a + k * wsize pl e)) _ E).
  assert (L := fun b => proj1 (load_range be (wsize pl e) W b HW (Z.lt_le_incl _ _ (wsize_pos e)))).
  destruct e; cbn [build refers sptr sbytes bptr bbytes] in *; try reflexivity;
    f_equal; apply span_ext; intros b Hb; apply Hr; rewrite span_len by apply L; exact Hb.
Qed.

(** The bytes of an element in memory. *)
Lemma byte_peek e W a o : isBytes W -> 0 <= o < esize pl e -> byteOf pl be e (peek pl be e W a) o = W (a + o).
Proof.
  intros HW Ho. assert (P := wsize_pos e). unfold byteOf.
  assert (D := Z.div_mod o (wsize pl e) ltac:(lia)). assert (R := Z.mod_pos_bound o (wsize pl e) P).
  assert (Q : 0 <= o / wsize pl e < nwords e).
  { split; [apply Z.div_pos; lia|]. apply Z.div_lt_upper_bound; [lia|]. unfold esize in Ho. lia. }
  rewrite word_peek by assumption. rewrite digit_load by assumption. f_equal. lia.
Qed.

(** An element copied from [W0] at [b] to [W] at [a]. *)
Lemma peek_copy e W W0 a b : isBytes W0 ->
  (forall o, 0 <= o < esize pl e -> W (a + o) = byteOf pl be e (peek pl be e W0 b) o) ->
  (forall c, refers e (peek pl be e W0 b) c -> W c = W0 c) ->
  peek pl be e W a = peek pl be e W0 b.
Proof.
  intros HW Hw Hr. assert (P := wsize_pos e).
  assert (E : forall k, 0 <= k < nwords e -> load be (wsize pl e) W (a + k * wsize pl e) = load be (wsize pl e) W0 (b + k * wsize pl e)).
  { intros k Hk. unfold load. apply sumTo_ext. intros i Hi. assert (Q := pos_range be (wsize pl e) i ltac:(lia)).
    rewrite <- !Z.add_assoc. rewrite Hw by (apply word_in; assumption). apply byte_peek; [exact HW|apply word_in; assumption]. }
  unfold peek in *. rewrite (build_ext e W (fun k => load be (wsize pl e) W0 (b + k * wsize pl e)) _ E).
  assert (L := fun b => proj1 (load_range be (wsize pl e) W0 b HW (Z.lt_le_incl _ _ P))).
  destruct e; cbn [build refers sptr sbytes bptr bbytes] in *; try reflexivity;
    f_equal; apply span_ext; intros c Hc; apply Hr; rewrite span_len by apply L; exact Hc.
Qed.

(** ** Slices *)

Lemma fill_out j W m a : ~ region pl j a -> fill pl be j W m a = W a.
Proof.
  unfold region, fill. intro H. destruct (Z.leb_spec (jbase j) a); [|reflexivity].
  destruct (Z.ltb_spec a (jbase j + jlen j * esize pl (jety j))); [lia|reflexivity].
Qed.

Lemma block_region j x a : 0 <= x < jlen j -> block pl j x a -> region pl j a.
Proof. unfold block, region. assert (P := esize_pos (jety j)). nia. Qed.

Lemma fill_in j W m x o : 0 <= x < jlen j -> 0 <= o < esize pl (jety j) ->
  fill pl be j W m (jbase j + x * esize pl (jety j) + o) = byteOf pl be (jety j) (m x) o.
Proof.
  intros Hx Ho. assert (P := esize_pos (jety j)). unfold fill. set (z := esize pl (jety j)) in *.
  destruct (Z.leb_spec (jbase j) (jbase j + x * z + o)); [|nia].
  destruct (Z.ltb_spec (jbase j + x * z + o) (jbase j + jlen j * z)); [|nia]. cbn [andb].
  replace (jbase j + x * z + o - jbase j) with (o + x * z) by lia.
  rewrite Z.div_add, Z.mod_add by lia. rewrite Z.div_small, Z.mod_small by lia. reflexivity.
Qed.

(** Writing back what is there changes nothing. *)
Lemma fill_same j W m : isBytes W -> (forall x, m x = viewAs pl be j W x) -> forall a, fill pl be j W m a = W a.
Proof.
  intros HW Hm a. assert (P := esize_pos (jety j)). unfold fill. set (z := esize pl (jety j)) in *.
  destruct (Z.leb_spec (jbase j) a); [|reflexivity].
  destruct (Z.ltb_spec a (jbase j + jlen j * z)); [|reflexivity]. cbn [andb].
  rewrite Hm. unfold viewAs. rewrite byte_peek by (auto; apply Z.mod_pos_bound; exact P).
  f_equal. fold z. assert (D := Z.div_mod (a - jbase j) z ltac:(lia)). lia.
Qed.

Lemma fill_bytes j W m : isBytes W -> isBytes (fill pl be j W m).
Proof.
  intros HW a. unfold fill. destruct (_ && _); [|apply HW]. unfold byteOf, digit. apply Z.mod_pos_bound. lia.
Qed.

End Layout.

(** ** Many calls *)

Section World.
Variables (pl : plat) (be : bool) (tn : tuning).
Hypothesis Hpl : platOk pl.
Hypothesis Htn : tuningOk pl tn.
Variable J : nat -> job.
Variable M : Z.

Notation vw i W := (viewAs pl be (J i) W).
Notation reg i := (region pl (J i)).
Notation hp i W := (heap pl be (J i) W).

(** What holds of a call in progress, in memory [W]. *)
Definition going (i : nat) (W0 : bytes) (s : jst (J i)) (W : bytes) (mg : Z) : Prop :=
  isBytes W0 /\ typedSlice pl (jety (J i)) (vw i W0) (jslice (J i)) /\
  sortable (jety (J i)) (jopt (J i)) (contents (vw i W0) (jslice (J i))) /\
  (exists k, reach (jcall pl be tn (J i) W0) M k (share s (vw i W) mg)) /\
  (forall a, hp i W0 a -> W a = W0 a) /\
  (forall a, reg i a -> hp i W0 a -> False).

Lemma cells_of i x : cellsOf (jslice (J i)) x <-> 0 <= x < jlen (J i).
Proof. unfold cellsOf, jslice. cbn [off len]. lia. Qed.

Lemma in_contents i W v : In v (contents (vw i W) (jslice (J i))) -> exists y, 0 <= y < jlen (J i) /\ v = vw i W y.
Proof.
  unfold contents, jslice. cbn [off len]. intro H. apply in_map_iff in H. destruct H as (n & <- & Hn). apply in_seq in Hn.
  exists (Z.of_nat n). split; [lia|]. f_equal.
Qed.

Lemma keeps i W0 k s : typedSlice pl (jety (J i)) (vw i W0) (jslice (J i)) ->
  reach (jcall pl be tn (J i) W0) M k s -> forall x, 0 <= x < jlen (J i) ->
  exists y, 0 <= y < jlen (J i) /\ mem (sh s) x = vw i W0 y.
Proof.
  intros Hty R x Hx.
  destruct (typed_keeps pl tn (jopt (J i)) (jety (J i)) (jslice (J i)) (vw i W0) Hpl Htn Hty M k s R) as (_ & _ & _ & _ & H).
  apply in_contents, H, cells_of, Hx.
Qed.

(** After a step, memory holds what the step wrote. *)
Lemma view_fill i W0 k s W : isBytes W0 -> typedSlice pl (jety (J i)) (vw i W0) (jslice (J i)) ->
  reach (jcall pl be tn (J i) W0) M k s -> (forall a, hp i W0 a -> W a = W0 a) -> (forall a, reg i a -> hp i W0 a -> False) ->
  forall W', (forall a, W' a = fill pl be (J i) W (mem (sh s)) a) ->
  forall x, 0 <= x < jlen (J i) -> vw i W' x = mem (sh s) x.
Proof.
  intros HW0 Hty R Hh Hd W' E x Hx. destruct (keeps i W0 k s Hty R x Hx) as (y & Hy & Ey). rewrite Ey. unfold viewAs.
  apply peek_copy; [exact Hpl|exact HW0| |].
  - intros o Ho. rewrite E, fill_in by (exact Hpl || assumption). rewrite Ey. reflexivity.
  - intros c Hc. assert (HC : hp i W0 c) by (exists y; auto). rewrite E, fill_out; [apply Hh, HC|]. intro Hr. exact (Hd c Hr HC).
Qed.

(** Others' changes do not show. *)
Lemma view_other i W0 k s W mg W' : isBytes W -> typedSlice pl (jety (J i)) (vw i W0) (jslice (J i)) ->
  reach (jcall pl be tn (J i) W0) M k (share s (vw i W) mg) ->
  (forall a, reg i a \/ hp i W0 a -> W' a = W a) ->
  forall x, 0 <= x < jlen (J i) -> vw i W' x = vw i W x.
Proof.
  intros HW Hty R Hs x Hx. destruct (keeps i W0 k _ Hty R x Hx) as (y & Hy & Ey). cbn [share sh mem] in Ey.
  apply peek_ext; [exact Hpl|exact HW| |].
  - intros o Ho. apply Hs. left. apply (block_region pl Hpl (J i) x); [exact Hx|]. unfold block. lia.
  - intros b Hb. apply Hs. right. exists y. split; [exact Hy|]. rewrite <- Ey. exact Hb.
Qed.

Lemma going_other i W0 s W mg W' mg' : isBytes W -> going i W0 s W mg -> 0 <= mg' <= M ->
  (forall a, reg i a \/ hp i W0 a -> W' a = W a) -> going i W0 s W' mg'.
Proof.
  intros HW (A & B & C & (k & R) & E & F) Hm Hs. split; [exact A|]. split; [exact B|]. split; [exact C|].
  split; [|split; [intros a Ha; rewrite Hs by auto; apply E, Ha|exact F]].
  exists k. destruct R as (g & Hg & R). exists g. split; [exact Hg|].
  rewrite <- (share_share s (vw i W) mg). apply env_share; [exact R|exact Hm|].
  intros x Hx. cbn [share sh mem]. apply cells_of in Hx.
  apply (view_other i W0 k s W mg W' HW B); [exists g; auto|exact Hs|exact Hx].
Qed.

Lemma jcall_ok i W0 : typedSlice pl (jety (J i)) (vw i W0) (jslice (J i)) ->
  sortable (jety (J i)) (jopt (J i)) (contents (vw i W0) (jslice (J i))) -> sortCall pl tn (jcall pl be tn (J i) W0).
Proof. intros A B. apply call_typed; assumption. Qed.

Definition borderly (W : bytes) (mg : Z) (S : forall i, jphase (J i)) : Prop :=
  isBytes W /\ 0 <= mg <= M /\
  (forall i W0 s, S i = JBusy (J i) W0 s -> going i W0 s W mg) /\
  (forall i s, S i = JOver (J i) s -> returned s tt /\ forall c, In c (thr s) -> exiting c) /\
  (forall i j W0 s W0' s' a, S i = JBusy (J i) W0 s -> S j = JBusy (J j) W0' s' -> i <> j ->
     reg i a -> reg j a \/ hp j W0' a -> False).

(** Taking apart a change of one phase. *)
Lemma busy_cases (S S' : forall i, jphase (J i)) i : (forall j, j <> i -> S' j = S j) ->
  forall j W0 s, S' j = JBusy (J j) W0 s -> j <> i /\ S j = JBusy (J j) W0 s \/ j = i.
Proof. intros E j W0 s H. destruct (Nat.eq_dec j i) as [->|N]; [auto|]. left. rewrite <- (E j N). auto. Qed.

Theorem bworld_orderly W mg S : bworld pl be tn J M W mg S -> borderly W mg S.
Proof.
  induction 1 as [W mg HW Hm|W mg S S' i _ IH Hi Hty Hso Hself Hd1 Hd2 E En|W mg S S' i W0 s s' W' _ IH Hi Hs EW E En
                 |W mg S S' i W0 s _ IH Hi Hr E En|W mg S S' i s s' W' _ IH Hi Hs EW E En|W mg S W' mg' _ IH HW' Hm Hs].
  - split; [exact HW|]. split; [exact Hm|]. split; [|split]; intros; discriminate.
  - destruct IH as (HW & Hm & HB & HO & HD). split; [exact HW|]. split; [exact Hm|]. split; [|split].
    + intros j W0 s Hj. destruct (Nat.eq_dec j i) as [->|N]; [|rewrite (En j N) in Hj; exact (HB j W0 s Hj)].
      rewrite E in Hj. injection Hj as <- <-. split; [exact HW|]. split; [exact Hty|]. split; [exact Hso|].
      split; [|split; [reflexivity|exact Hself]]. exists O, mg. split; [exact Hm|constructor].
    + intros j s Hj. destruct (Nat.eq_dec j i) as [->|N]; [rewrite E in Hj; discriminate|].
      rewrite (En j N) in Hj. exact (HO j s Hj).
    + intros j1 j2 W1 s1 W2 s2 a H1 H2 Ne X1 X2.
      destruct (Nat.eq_dec j1 i) as [->|N1]; destruct (Nat.eq_dec j2 i) as [->|N2].
      * exact (Ne eq_refl).
      * rewrite (En j2 N2) in H2. destruct X2 as [X2|X2]; [exact (Hd1 j2 W2 s2 a H2 X2 (or_introl X1))|exact (Hd2 j2 W2 s2 a H2 X2 X1)].
      * rewrite (En j1 N1) in H1. rewrite E in H2. injection H2 as <- _. exact (Hd1 j1 W1 s1 a H1 X1 X2).
      * rewrite (En j1 N1) in H1. rewrite (En j2 N2) in H2. exact (HD j1 j2 W1 s1 W2 s2 a H1 H2 Ne X1 X2).
  - destruct IH as (HW & Hm & HB & HO & HD). destruct (HB i W0 s Hi) as (A & B & C & (k & R) & G & F).
    assert (Eg : maxg (sh s') = mg) by (rewrite (pstep_maxg _ _ _ Hs); reflexivity).
    assert (R' : reach (jcall pl be tn (J i) W0) M (Datatypes.S k) s').
    { destruct R as (g0 & Hg0 & R). exists g0. split; [exact Hg0|]. eapply exec_prog; eauto. }
    assert (HW' : isBytes W') by (intro a; rewrite EW; apply fill_bytes, HW).
    assert (Hout : forall a, ~ reg i a -> W' a = W a) by (intros a Ha; rewrite EW; apply fill_out, Ha).
    split; [exact HW'|]. split; [exact Hm|]. split; [|split].
    + intros j W1 u Hj. destruct (Nat.eq_dec j i) as [->|N].
      * rewrite E in Hj. injection Hj as <- <-. split; [exact A|]. split; [exact B|]. split; [exact C|].
        split; [|split; [|exact F]].
        -- exists (Datatypes.S k). destruct R' as (g & Hg & R1). exists g. split; [exact Hg|].
           apply env_share; [exact R1|exact Hm|]. intros x Hx. apply cells_of in Hx.
           apply (view_fill i W0 (Datatypes.S k) s' W); try assumption. exists g. auto.
        -- intros a Ha. rewrite Hout; [apply G, Ha|]. intro Hr. exact (F a Hr Ha).
      * rewrite (En j N) in Hj. apply (going_other j W1 u W mg); [exact HW|exact (HB j W1 u Hj)|exact Hm|].
        intros a Ha. apply Hout. intro Hr. exact (HD i j W0 s W1 u a Hi Hj (not_eq_sym N) Hr Ha).
    + intros j u Hj. destruct (Nat.eq_dec j i) as [->|N]; [rewrite E in Hj; discriminate|].
      rewrite (En j N) in Hj. exact (HO j u Hj).
    + intros j1 j2 W1 s1 W2 s2 a H1 H2 Ne X1 X2.
      assert (B1 : exists u, S j1 = JBusy (J j1) W1 u).
      { destruct (Nat.eq_dec j1 i) as [->|N1]; [|rewrite (En j1 N1) in H1; eauto]. rewrite E in H1. injection H1 as <- _. eauto. }
      assert (B2 : exists u, S j2 = JBusy (J j2) W2 u).
      { destruct (Nat.eq_dec j2 i) as [->|N2]; [|rewrite (En j2 N2) in H2; eauto]. rewrite E in H2. injection H2 as <- _. eauto. }
      destruct B1 as [u1 B1], B2 as [u2 B2]. exact (HD j1 j2 W1 u1 W2 u2 a B1 B2 Ne X1 X2).
  - destruct IH as (HW & Hm & HB & HO & HD). split; [exact HW|]. split; [exact Hm|]. split; [|split].
    + intros j W1 u Hj. destruct (Nat.eq_dec j i) as [->|N]; [rewrite E in Hj; discriminate|].
      rewrite (En j N) in Hj. exact (HB j W1 u Hj).
    + intros j u Hj. destruct (Nat.eq_dec j i) as [->|N]; [|rewrite (En j N) in Hj; exact (HO j u Hj)].
      rewrite E in Hj. injection Hj as <-. split; [exact Hr|]. destruct (HB i W0 s Hi) as (A & B & C & (k & R) & _ & _).
      exact (proj2 (g_goal pl tn Hpl Htn _ (jcall_ok i W0 B C) M k _ R tt Hr)).
    + intros j1 j2 W1 s1 W2 s2 a H1 H2 Ne.
      destruct (Nat.eq_dec j1 i) as [->|N1]; [rewrite E in H1; discriminate|].
      destruct (Nat.eq_dec j2 i) as [->|N2]; [rewrite E in H2; discriminate|].
      rewrite (En j1 N1) in H1. rewrite (En j2 N2) in H2. exact (HD j1 j2 W1 s1 W2 s2 a H1 H2 Ne).
  - destruct IH as (HW & Hm & HB & HO & HD). destruct (HO i s Hi) as [Hr Ht].
    destruct (after_return (procs pl tn (jety (J i))) M (fun _ => True) 1 (share s (vw i W) mg) s' tt) as (A & B & D); auto.
    { eapply exec_prog; [apply exec_refl|exact Hs]. }
    cbn [share sh mem] in D.
    assert (EW' : forall a, W' a = W a).
    { intro a. rewrite EW. apply fill_same; [exact Hpl|exact HW|]. intro x. apply D. exact I. }
    assert (HW' : isBytes W') by (intro a; rewrite EW'; apply HW).
    split; [exact HW'|]. split; [exact Hm|]. split; [|split].
    + intros j W1 u Hj. destruct (Nat.eq_dec j i) as [->|N]; [rewrite E in Hj; discriminate|].
      rewrite (En j N) in Hj. apply (going_other j W1 u W mg); [exact HW|exact (HB j W1 u Hj)|exact Hm|auto].
    + intros j u Hj. destruct (Nat.eq_dec j i) as [->|N]; [|rewrite (En j N) in Hj; exact (HO j u Hj)].
      rewrite E in Hj. injection Hj as <-. auto.
    + intros j1 j2 W1 s1 W2 s2 a H1 H2 Ne.
      destruct (Nat.eq_dec j1 i) as [->|N1]; [rewrite E in H1; discriminate|].
      destruct (Nat.eq_dec j2 i) as [->|N2]; [rewrite E in H2; discriminate|].
      rewrite (En j1 N1) in H1. rewrite (En j2 N2) in H2. exact (HD j1 j2 W1 s1 W2 s2 a H1 H2 Ne).
  - destruct IH as (HW & _ & HB & HO & HD). split; [exact HW'|]. split; [exact Hm|]. split; [|split; [exact HO|exact HD]].
    intros j W0 s Hj. apply (going_other j W0 s W mg); [exact HW|exact (HB j W0 s Hj)|exact Hm|]. intros a Ha. exact (Hs j W0 s a Hj Ha).
Qed.

(** Elements move as blocks of bytes. *)
Lemma going_blocks i W0 s W mg : isBytes W -> going i W0 s W mg -> forall x, 0 <= x < jlen (J i) ->
  exists y, 0 <= y < jlen (J i) /\ forall o, 0 <= o < esize pl (jety (J i)) ->
    W (jbase (J i) + x * esize pl (jety (J i)) + o) = W0 (jbase (J i) + y * esize pl (jety (J i)) + o).
Proof.
  intros HW (A & B & C & (k & R) & _) x Hx. destruct (keeps i W0 k _ B R x Hx) as (y & Hy & E). cbn [share sh mem] in E.
  exists y. split; [exact Hy|]. intros o Ho. unfold viewAs in E.
  rewrite <- (byte_peek pl be Hpl (jety (J i)) W) by assumption. rewrite E. apply byte_peek; assumption.
Qed.

Theorem many_bytes W mg S : bworld pl be tn J M W mg S ->
  (forall i W0 s, S i = JBusy (J i) W0 s ->
     (exists k, reach (jcall pl be tn (J i) W0) M k (share s (vw i W) mg)) /\ ~ panicked s /\ ~ race s /\
     (returned s tt \/ exists s', pstep (procs pl tn (jety (J i))) (share s (vw i W) mg) s') /\
     (returned s tt -> Permutation (contents (vw i W) (jslice (J i))) (contents (vw i W0) (jslice (J i))) /\
        inOrder (jety (J i)) (jopt (J i)) (contents (vw i W) (jslice (J i)))) /\
     (forall a, hp i W0 a -> W a = W0 a) /\
     (forall x, 0 <= x < jlen (J i) -> exists y, 0 <= y < jlen (J i) /\ forall o, 0 <= o < esize pl (jety (J i)) ->
        W (jbase (J i) + x * esize pl (jety (J i)) + o) = W0 (jbase (J i) + y * esize pl (jety (J i)) + o))) /\
  (forall i j W0 s W0' s' x b a, S i = JBusy (J i) W0 s -> S j = JBusy (J j) W0' s' -> i <> j ->
     In (Some (x, b)) (accesses s) -> block pl (J i) x a ->
     ~ hp j W0' a /\ forall x' b', In (Some (x', b')) (accesses s') -> ~ block pl (J j) x' a) /\
  (forall i s, S i = JOver (J i) s -> ~ panicked s /\ (forall x b, ~ In (Some (x, b)) (accesses s)) /\
     forall s', pstep (procs pl tn (jety (J i))) (share s (vw i W) mg) s' -> forall a, fill pl be (J i) W (mem (sh s')) a = W a).
Proof.
  intro H. destruct (bworld_orderly W mg S H) as (HW & Hm & HB & HO & HD). split; [|split].
  - intros i W0 s Hi. assert (G := HB i W0 s Hi). assert (Bl := going_blocks i W0 s W mg HW G).
    destruct G as (A & B & C & (k & R) & E & F). assert (Ok := jcall_ok i W0 B C).
    split; [exists k; exact R|].
    split; [exact (g_no_panic pl tn Hpl Htn _ Ok M k _ R)|].
    split; [exact (g_no_race pl tn Hpl Htn _ Ok M k _ R)|].
    split; [destruct (g_progress pl tn Hpl Htn _ Ok M k _ R) as [[[] Hr]|Hp]; auto|].
    split; [intro Hr; exact (proj1 (g_goal pl tn Hpl Htn _ Ok M k _ R tt Hr))|]. split; [exact E|exact Bl].
  - assert (IB : forall i W0 s x b, S i = JBusy (J i) W0 s -> In (Some (x, b)) (accesses s) -> 0 <= x < jlen (J i)).
    { intros i W0 s x b Hi HA. destruct (HB i W0 s Hi) as (A & B & C & (k & R) & _). apply cells_of.
      exact (g_in_bounds pl tn Hpl Htn _ (jcall_ok i W0 B C) M k _ R x b HA). }
    intros i j W0 s W0' s' x b a Hi Hj Ne HA Hb.
    assert (Rg := block_region pl Hpl (J i) x a (IB i W0 s x b Hi HA) Hb). split.
    + intro X. exact (HD i j W0 s W0' s' a Hi Hj Ne Rg (or_intror X)).
    + intros x' b' HA' Hb'. assert (Rg' := block_region pl Hpl (J j) x' a (IB j W0' s' x' b' Hj HA') Hb').
      exact (HD i j W0 s W0' s' a Hi Hj Ne Rg (or_introl Rg')).
  - intros i s Hi. destruct (HO i s Hi) as [Hr Ht]. split; [|split].
    + intros [E|(c & Hc & E)]; [unfold returned in Hr; rewrite Hr in E; discriminate|].
      destruct (exiting_view c (Ht c Hc)) as [[a Ha]|[c' Hc']]; congruence.
    + intros x b [E|E].
      * unfold access in E. rewrite Hr in E. discriminate.
      * apply in_map_iff in E. destruct E as (c & E & Hc). unfold access in E.
        destruct (exiting_view c (Ht c Hc)) as [[a Ha]|[c' Hc']]; [rewrite Ha in E|rewrite Hc' in E]; discriminate.
    + intros s' Hs a. apply fill_same; [exact Hpl|exact HW|]. intro x.
      destruct (after_return (procs pl tn (jety (J i))) M (fun _ => True) 1 (share s (vw i W) mg) s' tt) as (_ & _ & D); auto.
      { eapply exec_prog; [apply exec_refl|exact Hs]. }
      apply D. exact I.
Qed.

End World.

(** ** Documented types have the size of what they are sorted as *)

Theorem layout pl byLen t e : docArg byLen (wb pl) (Some (RSlice t)) e -> goSize (wb pl) t (esize pl e).
Proof.
  unfold docArg. destruct byLen; intro H; inversion H; subst; unfold esize; cbn [wsize nwords]; rewrite ?Z.mul_1_l.
  all: try match goal with E : 4 = wb _ |- _ => rewrite <- E | E : 8 = wb _ |- _ => rewrite <- E end.
  all: try (apply size_slice); try (apply size_string).
  all: try (apply size_4; cbn; tauto); try (apply size_8; cbn; tauto).
  all: try (apply (size_word 4); cbn; tauto); try (apply (size_word 8); cbn; tauto).
  all: match goal with E : In _ _ |- _ => cbn in E; destruct E as [<-|[<-|[<-|[]]]] end.
  all: try (apply (size_word 4); cbn; tauto); try (apply (size_word 8); cbn; tauto).
Qed.

Theorem goSize_fun wb t n n' : goSize wb t n -> goSize wb t n' -> n = n'.
Proof. intros H H'; inversion H; subst; inversion H'; subst; try reflexivity; cbn in *; intuition (subst; congruence). Qed.
