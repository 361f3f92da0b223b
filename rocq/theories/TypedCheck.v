(** * The checkers of the ten types *)

From Coq Require Import List ZArith Lia Bool Permutation Sorted.
From Coq Require Import Floats.SpecFloat.
From Verif Require Import Lang SeqLogic ConcLogic Base Scalar Typed SeqOps ScalarFacts TypedPart
  TypedShort ConcSort TypedLong TypedSort Kinds Spec KindsFacts TypedApi.
Import ListNotations.
Open Scope Z_scope.
Local Arguments Z.mul : simpl never.
Local Arguments Z.add : simpl never.
Local Arguments Z.sub : simpl never.
Local Arguments Z.pow : simpl never.

Section Check.
Context {Wd : word}.
Context {P T : Type}.
Variable body : P -> cmd P T unit.

(** The largest index in (lo,hi] that is out of order, or 0. *)
Definition verdict (bad : Z -> Prop) (lo hi r : Z) : Prop :=
  (r = 0 /\ forall i, lo < i <= hi -> ~ bad i) \/
  (lo < r <= hi /\ bad r /\ forall i, r < i <= hi -> ~ bad i).

Lemma swp_downLoop (bad : T -> T -> bool) s lo hi v D : 0 <= lo -> hi < len s ->
  swp body D (Z.to_nat (4 * (Z.max 0 (hi - lo) + 1))) (reg s) empty
    (fun r _ v' => v' = v /\ verdict (fun i => bad (v (off s + i)) (v (off s + i - 1)) = true) lo hi r)
    (Loop hi (fun i =>
      if lo <? i then
        x <- sget s i ;; y <- sget s (i - 1) ;;
        if bad x y then done i else goto (i - 1)
      else done 0))%cmd v.
Proof.
  intros Hlo Hhi.
  eapply (swp_loop_var body D 3 (reg s) empty
    (fun i v' => v' = v /\ i <= hi /\
       forall j, Z.max lo i < j <= hi -> bad (v (off s + j)) (v (off s + j - 1)) <> true)
    (fun i => Z.max 0 (i - lo)) (fun r v' => v' = v /\ verdict _ lo hi r)).
  - intros i v' (-> & Hi & Hj). destruct (Z.ltb_spec lo i) as [C|C].
    + apply swp_bind. apply swp_sget; [lia|lia|unfold reg; lia|].
      apply swp_bind. apply swp_sget; [lia|lia|unfold reg; lia|].
      replace (off s + (i - 1)) with (off s + i - 1) by lia.
      destruct (bad (v (off s + i)) (v (off s + i - 1))) eqn:E; apply swp_ret.
      * split; [reflexivity|]. right. split; [lia|]. split; [exact E|]. intros j Hj'. apply Hj. lia.
      * split; [|lia]. split; [reflexivity|]. split; [lia|]. intros j Hj'.
        destruct (Z.eq_dec j i) as [->|]; [congruence|apply Hj; lia].
    + apply swp_ret. split; [reflexivity|]. left. split; [reflexivity|]. intros j Hj'. apply Hj. lia.
  - split; [reflexivity|]. split; [lia|]. intros; lia.
  - simpl. lia.
  - simpl. lia.
Qed.

Lemma swp_isSorted (lt : T -> T -> bool) s v D : 0 <= len s ->
  swp body D (Z.to_nat (4 * (len s + 1))) (reg s) empty
    (fun r _ v' => v' = v /\ verdict (fun i => lt (v (off s + i)) (v (off s + i - 1)) = true) 0 (len s - 1) r)
    (isSorted lt s) v.
Proof.
  intro H0. eapply swp_use with (D1 := O); [apply (swp_downLoop lt s 0 (len s - 1)); lia|lia|lia|auto|auto|]. cbv beta. auto.
Qed.

Section F.
Variable ne : T -> bool.
Variable ge : T -> T -> bool.

Definition skipPost (opt : Z) (s : slice) (v : Z -> T) (l h : Z) : Prop :=
  0 <= l <= len s /\ -1 <= h < len s /\ l <= h + 1 /\
  (opt = NaNlarge -> l = 0 /\ (forall i, h < i < len s -> ne (v (off s + i)) = true) /\
      (0 <= h -> ne (v (off s + h)) = false)) /\
  (opt = NaNsmall -> h = len s - 1 /\ (forall i, 0 <= i < l -> ne (v (off s + i)) = true) /\
      (l < len s -> ne (v (off s + l)) = false)) /\
  (opt <> NaNlarge -> opt <> NaNsmall -> l = 0 /\ h = len s - 1).

Lemma swp_isSortedF opt s v D : 0 <= len s ->
  swp body D (Z.to_nat (8 * (len s + 2))) (reg s) empty
    (fun r _ v' => v' = v /\ exists l h, skipPost opt s v l h /\
       verdict (fun i => ge (v (off s + i)) (v (off s + i - 1)) <> true) l h r)
    (isSortedF ne ge opt opt s) v.
Proof.
  intro H0. unfold isSortedF. apply swp_bind.
  eapply swp_apply with (n1 := Z.to_nat (4 * (len s + 2))) (D1 := O) (R1 := reg s) (W1 := empty)
    (Post := fun '(l, h) v' => v' = v /\ skipPost opt s v l h); [|lia|lia|auto|auto|].
  - destruct (Z.eqb_spec opt NaNlarge) as [->|N1]; [|destruct (Z.eqb_spec opt NaNsmall) as [->|N2]].
    + eapply swp_conseq; [apply (swp_loop_var body 0 2 (reg s) empty
        (fun h v' => v' = v /\ -1 <= h < len s /\ forall i, h < i < len s -> ne (v (off s + i)) = true)
        (fun h => h + 1)
        (fun '(l, h) v' => v' = v /\ skipPost NaNlarge s v l h))|].
      * intros h v' (-> & Hh & Hn). destruct (Z.leb_spec 0 h) as [C|C].
        -- apply swp_bind. apply swp_sget; [lia|lia|unfold reg; lia|].
           destruct (ne (v (off s + h))) eqn:E; cbn [negb]; apply swp_ret.
           ++ split; [|lia]. split; [reflexivity|]. split; [lia|]. intros i Hi.
              destruct (Z.eq_dec i h) as [->|]; [exact E|apply Hn; lia].
           ++ split; [reflexivity|]. split; [lia|]. split; [lia|]. split; [lia|].
              split; [auto|]. unfold NaNlarge, NaNsmall. split; [lia|congruence].
        -- apply swp_ret. split; [reflexivity|]. split; [lia|]. split; [lia|]. split; [lia|].
           split; [split; [auto|]; split; [exact Hn|lia]|]. unfold NaNlarge, NaNsmall. split; [lia|congruence].
      * split; [reflexivity|]. split; [lia|]. intros; lia.
      * lia.
      * simpl. lia.
      * cbv beta. intros [l h] m v' _ Hq. exact Hq.
    + eapply swp_conseq; [apply (swp_loop_var body 0 2 (reg s) empty
        (fun l v' => v' = v /\ 0 <= l <= len s /\ forall i, 0 <= i < l -> ne (v (off s + i)) = true)
        (fun l => len s - l)
        (fun '(l, h) v' => v' = v /\ skipPost NaNsmall s v l h))|].
      * intros l v' (-> & Hl & Hn). destruct (Z.leb_spec l (len s - 1)) as [C|C].
        -- apply swp_bind. apply swp_sget; [lia|lia|unfold reg; lia|].
           destruct (ne (v (off s + l))) eqn:E; cbn [negb]; apply swp_ret.
           ++ split; [|lia]. split; [reflexivity|]. split; [lia|]. intros i Hi.
              destruct (Z.eq_dec i l) as [->|]; [exact E|apply Hn; lia].
           ++ split; [reflexivity|]. split; [lia|]. split; [lia|]. split; [lia|].
              split; [unfold NaNlarge, NaNsmall; lia|]. split; [auto|congruence].
        -- apply swp_ret. split; [reflexivity|]. split; [lia|]. split; [lia|]. split; [lia|].
           split; [unfold NaNlarge, NaNsmall; lia|]. split; [|congruence]. intros _. split; [reflexivity|].
           split; [exact Hn|lia].
      * split; [reflexivity|]. split; [lia|]. intros; lia.
      * lia.
      * simpl. lia.
      * cbv beta. intros [l h] m v' _ Hq. exact Hq.
    + apply swp_ret. split; [reflexivity|]. split; [lia|]. split; [lia|]. split; [lia|].
      split; [congruence|]. split; [congruence|]. auto.
  - intros [l h] m v' (-> & Hsk) _ Hm. assert (Hsk' := Hsk). destruct Hsk' as (Hl & Hh & Hlh & _).
    eapply swp_use with (D1 := O); [apply (swp_downLoop (fun x y => negb (ge x y)) s l h); lia|lia|lia|auto|auto|].
    cbv beta. intros r k v' _ (-> & Hv). split; [reflexivity|]. exists l, h. split; [exact Hsk|].
    destruct Hv as [[-> Hv]|(Hr & Hb & Hv)].
    + left. split; [reflexivity|]. intros i Hi Hg. apply (Hv i Hi). revert Hg. destruct (ge (v (off s + i)) (v (off s + i - 1))); simpl; congruence.
    + right. split; [exact Hr|]. split; [revert Hb; destruct (ge (v (off s + r)) (v (off s + r - 1))); simpl; congruence|].
      intros i Hi Hg. apply (Hv i Hi). revert Hg. destruct (ge (v (off s + i)) (v (off s + i - 1))); simpl; congruence.
Qed.

End F.
End Check.

(** ** In terms of the specification *)

Lemma le_total pl e x y : platOk pl -> wellTyped pl e x -> wellTyped pl e y -> ~ nan e x -> ~ nan e y ->
  le e x y \/ le e y x.
Proof.
  intros Hpl Hx Hy Nx Ny. rewrite <- !(le_leb pl e) by assumption.
  assert (LW := laws_all pl e Hpl). assert (Ox := okKey_of pl e x Hx Nx). assert (Oy := okKey_of pl e y Hy Ny).
  rewrite !(law_le _ _ LW) by assumption.
  destruct (ltb (kindOf pl e) (key (kindOf pl e) y) (key (kindOf pl e) x)) eqn:E; [|auto].
  right. rewrite (law_asym _ _ LW _ _ Oy Ox E). reflexivity.
Qed.

Lemma le_trans pl e x y z : platOk pl -> wellTyped pl e x -> wellTyped pl e y -> wellTyped pl e z ->
  ~ nan e x -> ~ nan e y -> ~ nan e z -> le e x y -> le e y z -> le e x z.
Proof.
  intros Hpl Hx Hy Hz Nx Ny Nz. rewrite <- !(le_leb pl e) by assumption.
  apply (law_trans _ _ (laws_all pl e Hpl)); apply okKey_of; assumption.
Qed.

Lemma lt_nle pl e x y : platOk pl -> wellTyped pl e x -> wellTyped pl e y -> ~ nan e x -> ~ nan e y ->
  lt e x y <-> ~ le e y x.
Proof.
  intros Hpl Hx Hy Nx Ny. unfold lt. split; [tauto|]. intro H. split; [|exact H].
  destruct (le_total pl e x y Hpl Hx Hy Nx Ny); [assumption|contradiction].
Qed.

Lemma ltT_lt pl e x y : platOk pl -> wellTyped pl e x -> wellTyped pl e y -> ~ nan e x -> ~ nan e y ->
  ltT (kindOf pl e) x y = true <-> lt e x y.
Proof.
  intros Hpl Hx Hy Nx Ny. rewrite (lt_nle pl) by assumption. rewrite <- (le_leb pl e) by assumption.
  rewrite (law_le _ _ (laws_all pl e Hpl)) by (apply okKey_of; assumption).
  unfold ltT. destruct (ltb _ _ _); simpl; split; congruence.
Qed.

Lemma nnb b : ~ (b <> true) -> b = true.
Proof. destruct b; [reflexivity|]. intro H. exfalso. apply H. discriminate. Qed.

(** Adjacent order implies order. *)
Lemma adjacent_sorted {T} (R : T -> T -> Prop) (X : T -> Prop) (v : Z -> T) a b :
  (forall x y z, X x -> X y -> X z -> R x y -> R y z -> R x z) ->
  (forall i, a <= i < b -> X (v i)) ->
  (forall i, a < i < b -> R (v (i - 1)) (v i)) ->
  forall i j, a <= i -> i < j -> j < b -> R (v i) (v j).
Proof.
  intros Htr HX Hadj i j Hi Hij Hj. remember (Z.to_nat (j - i)) as n eqn:En. revert j Hij Hj En.
  induction n as [|n IH]; intros j Hij Hj En; [lia|].
  destruct (Z.eq_dec j (i + 1)) as [->|].
  - replace (v i) with (v (i + 1 - 1)) by (f_equal; lia). apply Hadj. lia.
  - apply Htr with (v (j - 1)); [apply HX; lia|apply HX; lia|apply HX; lia|apply IH; lia|apply Hadj; lia].
Qed.

(** [inOrder] by positions. *)
Lemma inOrder_pos e opt (w : Z -> elem e) s : 0 <= len s ->
  inOrder e opt (contents w s) <->
  exists p q, 0 <= p <= q /\ q <= len s /\
    (forall i, 0 <= i < p -> nan e (w (off s + i))) /\
    (forall i, p <= i < q -> ~ nan e (w (off s + i))) /\
    (forall i, q <= i < len s -> nan e (w (off s + i))) /\
    (forall i j, p <= i -> i < j -> j < q -> le e (w (off s + i)) (w (off s + j))) /\
    (opt = 1 -> p = 0) /\ (opt = -1 -> q = len s).
Proof.
  intro H0. split.
  - intros (a & x & b & E & Ha & Hx & Hb & Hs & H1 & H2).
    assert (El : Z.of_nat (length a) + Z.of_nat (length x) + Z.of_nat (length b) = len s).
    { assert (L := f_equal (@length _) E). rewrite contents_seg, seg_length, !app_length in L. lia. }
    exists (Z.of_nat (length a)), (Z.of_nat (length a) + Z.of_nat (length x)).
    assert (Hnth : forall i, 0 <= i < len s -> nth_error (a ++ x ++ b) (Z.to_nat i) = Some (w (off s + i))).
    { intros i Hi. rewrite <- E, contents_seg, nth_error_seg by lia. do 2 f_equal. lia. }
    rewrite Forall_forall in Ha, Hx, Hb.
    split; [lia|]. split; [lia|]. split; [|split; [|split; [|split; [|split]]]].
    + intros i Hi. apply Ha. eapply nth_error_In with (n := Z.to_nat i).
      rewrite <- (Hnth i ltac:(lia)). symmetry. apply nth_error_app1. lia.
    + intros i Hi. apply Hx. eapply nth_error_In with (n := (Z.to_nat i - length a)%nat).
      rewrite <- (Hnth i ltac:(lia)). rewrite nth_error_app2 by lia. symmetry. apply nth_error_app1. lia.
    + intros i Hi. apply Hb. eapply nth_error_In with (n := (Z.to_nat i - length a - length x)%nat).
      rewrite <- (Hnth i ltac:(lia)). rewrite nth_error_app2 by lia. rewrite nth_error_app2 by lia. reflexivity.
    + intros i j Hi Hij Hj.
      assert (G : forall i, Z.of_nat (length a) <= i < Z.of_nat (length a) + Z.of_nat (length x) ->
                 nth_error x (Z.to_nat i - length a) = Some (w (off s + i))).
      { intros k Hk. rewrite <- (Hnth k ltac:(lia)). rewrite nth_error_app2 by lia. symmetry. apply nth_error_app1. lia. }
      assert (Gs : forall (l : list (elem e)), StronglySorted (le e) l -> forall m n y z, (m < n)%nat ->
                 nth_error l m = Some y -> nth_error l n = Some z -> le e y z).
      { clear. induction 1 as [|u l HS IH HF]; intros m n y z Hmn Hm Hn.
        - destruct m; discriminate.
        - destruct n; [lia|]. destruct m; simpl in *.
          + inversion Hm; subst. rewrite Forall_forall in HF. apply HF. eapply nth_error_In; eassumption.
          + eapply IH; [|eassumption|eassumption]. lia. }
      eapply Gs; [exact Hs| |apply (G i); lia|apply (G j); lia]. lia.
    + intro E1. rewrite (H1 E1). reflexivity.
    + intro E1. rewrite (H2 E1) in El. simpl in El. lia.
  - intros (p & q & Hp & Hq & Ha & Hx & Hb & Hs & H1 & H2).
    exists (contents w (Slice (off s) p)), (contents w (Slice (off s + p) (q - p))),
      (contents w (Slice (off s + q) (len s - q))).
    split; [|split; [|split; [|split; [|split; [|split]]]]].
    + rewrite (contents_split w s p) by lia. f_equal.
      rewrite (contents_split w _ (q - p)) by (cbn [len]; lia). cbn [off len]. f_equal. f_equal. f_equal; lia.
    + apply contents_forall. unfold cellsOf. cbn [off len]. intros i Hi.
      replace i with (off s + (i - off s)) by lia. apply Ha. lia.
    + apply contents_forall. unfold cellsOf. cbn [off len]. intros i Hi.
      replace i with (off s + (i - off s)) by lia. apply Hx. lia.
    + apply contents_forall. unfold cellsOf. cbn [off len]. intros i Hi.
      replace i with (off s + (i - off s)) by lia. apply Hb. lia.
    + rewrite contents_seg. cbn [off len]. apply ascending_sorted. intros i j Hi Hij Hj.
      replace i with (off s + (i - off s)) by lia. replace j with (off s + (j - off s)) by lia. apply Hs; lia.
    + intro E. rewrite (H1 E). reflexivity.
    + intro E. rewrite (H2 E). unfold contents. cbn [len]. replace (len s - len s) with 0 by lia. reflexivity.
Qed.

Section CheckApi.
Context {Wd : word}.
Variable pl : plat.
Hypothesis Hpl : platOk pl.
Variable tn : tuning.
Variable e : ety.
Notation kd := (kindOf pl e).

Lemma verdict_spec s v r : isFloat e = false -> typedSlice pl e v s ->
  verdict (fun i => ltT kd (v (off s + i)) (v (off s + i - 1)) = true) 0 (len s - 1) r ->
  checkSpec e s v r.
Proof.
  intros Ef [[H0 Hb] Hty] Hr. rewrite contents_forall in Hty. unfold cellsOf in Hty.
  assert (Hl : forall i, 0 < i < len s ->
     (ltT kd (v (off s + i)) (v (off s + i - 1)) = true <-> lt e (v (off s + i)) (v (off s + i - 1)))).
  { intros i Hi. apply ltT_lt; auto; try (apply nonfloat_nan; exact Ef); apply Hty; lia. }
  assert (Hn : forall i, 0 < i < len s ->
     (~ lt e (v (off s + i)) (v (off s + i - 1)) <-> le e (v (off s + i - 1)) (v (off s + i)))).
  { intros i Hi. rewrite (lt_nle pl); auto; try (apply nonfloat_nan; exact Ef); try (apply Hty; lia).
    split; [|tauto]. intro H. rewrite <- (le_leb pl e) in H |- *; try (apply nonfloat_nan; exact Ef); try (apply Hty; lia).
    revert H. destruct (leb _ _ _); [reflexivity|]. intro H. exfalso. apply H. discriminate. }
  assert (Hsrt : StronglySorted (le e) (contents v s) <->
     forall i, 0 < i < len s -> ~ lt e (v (off s + i)) (v (off s + i - 1))).
  { rewrite contents_seg. split.
    - intros H i Hi. apply Hn; [exact Hi|]. apply (sorted_ascending _ _ _ _ H); lia.
    - intro H. apply ascending_sorted. apply (adjacent_sorted (le e) (wellTyped pl e)).
      + intros x y z X1 X2 X3. apply (le_trans pl); auto; apply nonfloat_nan; exact Ef.
      + intros i Hi. apply Hty. lia.
      + intros i Hi. assert (G := H (i - off s) ltac:(lia)). apply Hn in G; [|lia].
        replace (off s + (i - off s)) with i in G by lia. exact G. }
  destruct Hr as [[-> Hr]|(Hr & Hbad & Hmax)].
  - split; [|congruence]. split; [|auto]. intros _. apply Hsrt. intros i Hi. rewrite <- Hl by exact Hi. apply Hr. lia.
  - split.
    + split; [lia|]. intro HS. exfalso. apply (proj1 Hsrt HS r); [lia|]. apply Hl; [lia|exact Hbad].
    + intros _. split; [lia|]. split; [apply Hl; [lia|exact Hbad]|].
      intros i Hi. rewrite <- Hl by lia. apply Hmax. lia.
Qed.

Lemma SFleb_nan_l x : SFleb S754_nan x = false.
Proof. reflexivity. Qed.
Lemma SFleb_nan_r x : SFleb x S754_nan = false.
Proof. unfold SFleb. destruct x; reflexivity. Qed.

(** Go's x >= y on floats. *)
Lemma ge_spec x y : isFloat e = true -> wellTyped pl e x -> wellTyped pl e y ->
  leb kd (key kd y) (key kd x) = true <-> ~ nan e x /\ ~ nan e y /\ le e y x.
Proof.
  intros Ef Hx Hy. split.
  - intro H. assert (Nx : ~ nan e x).
    { intro N. revert H. clear - Ef N. destruct e; try discriminate; cbn in *; apply decode_nan in N; try lia;
        rewrite N, SFleb_nan_r; discriminate. }
    assert (Ny : ~ nan e y).
    { intro N. revert H. clear - Ef N. destruct e; try discriminate; cbn in *; apply decode_nan in N; try lia;
        rewrite N, SFleb_nan_l; discriminate. }
    split; [exact Nx|]. split; [exact Ny|]. apply (le_leb pl e); assumption.
  - intros (Nx & Ny & H). apply (le_leb pl e); assumption.
Qed.

Lemma verdict_specF opt s v r : isFloat e = true -> typedSlice pl e v s ->
  (exists l h, skipPost (selfNe e) opt s v l h /\
     verdict (fun i => leb kd (key kd (v (off s + i - 1))) (key kd (v (off s + i))) <> true) l h r) ->
  checkSpecF e opt s v r.
Proof.
  intros Ef [[H0 Hb] Hty] (l & h & (Hl & Hh & Hlh & S1 & S2 & S3) & Hr).
  rewrite contents_forall in Hty. unfold cellsOf in Hty. unfold NaNlarge, NaNsmall in *.
  assert (Hg : forall i, 0 < i < len s ->
     (leb kd (key kd (v (off s + i - 1))) (key kd (v (off s + i))) = true <->
      ~ nan e (v (off s + i)) /\ ~ nan e (v (off s + i - 1)) /\ le e (v (off s + i - 1)) (v (off s + i)))).
  { intros i Hi. apply ge_spec; [exact Ef|apply Hty; lia|apply Hty; lia]. }
  assert (Hdn : forall x, nan e x \/ ~ nan e x).
  { intro x. rewrite <- selfNe_nan. destruct (selfNe e x); auto. }
  assert (Hnf : forall x, selfNe e x = false -> ~ nan e x) by (intros x H; rewrite <- selfNe_nan; congruence).
  assert (Hnt : forall x, selfNe e x = true -> nan e x) by (intros x H; apply selfNe_nan; exact H).
  (* all pairs fine on (l,h]: ordered *)
  assert (Good : (forall i, l < i <= h -> ~ nan e (v (off s + i)) /\ ~ nan e (v (off s + i - 1)) /\ le e (v (off s + i - 1)) (v (off s + i))) ->
     (l <= h -> ~ nan e (v (off s + l)) \/ ~ nan e (v (off s + h))) ->
     (forall i, l <= i <= h -> ~ nan e (v (off s + i))) /\
     (forall i j, l <= i -> i < j -> j < h + 1 -> le e (v (off s + i)) (v (off s + j)))).
  { intros HG HE.
    assert (N : forall i, l <= i <= h -> ~ nan e (v (off s + i))).
    { intros i Hi. destruct (Z.eq_dec i h) as [->|].
      - destruct (Z.eq_dec l h) as [->|]; [destruct (HE ltac:(lia)); assumption|]. apply HG. lia.
      - destruct (HG (i + 1) ltac:(lia)) as (_ & N & _). replace (off s + (i + 1) - 1) with (off s + i) in N by lia. exact N. }
    split; [exact N|].
    apply (adjacent_sorted (le e) (fun x => wellTyped pl e x /\ ~ nan e x) (fun i => v (off s + i)) l (h + 1)).
    - intros x y z [] [] []. apply (le_trans pl); auto.
    - intros i Hi. split; [apply Hty; lia|apply N; lia].
    - intros i Hi. replace (off s + (i - 1)) with (off s + i - 1) by lia. apply HG. lia. }
  (* a bad pair at r with the cells above fine *)
  assert (Bad : l < r <= h -> ~ (leb kd (key kd (v (off s + r - 1))) (key kd (v (off s + r))) = true) ->
     nan e (v (off s + r)) \/ nan e (v (off s + r - 1)) \/ lt e (v (off s + r)) (v (off s + r - 1))).
  { intros Hr' Hb'. rewrite Hg in Hb' by lia.
    destruct (Hdn (v (off s + r))) as [|N1]; [auto|]. destruct (Hdn (v (off s + r - 1))) as [|N2]; [auto|].
    right; right. rewrite (lt_nle pl); [tauto|exact Hpl|apply Hty; lia|apply Hty; lia|exact N1|exact N2]. }
  assert (Pos := inOrder_pos e opt v s H0).
  (* if the contents are in order, no pair of (l,h] is bad *)
  assert (NoBad : inOrder e opt (contents v s) -> opt = 1 \/ opt = -1 \/ Forall (fun x => ~ nan e x) (contents v s) ->
     l < r <= h -> (forall i, r < i <= h -> leb kd (key kd (v (off s + i - 1))) (key kd (v (off s + i))) = true) ->
     leb kd (key kd (v (off s + r - 1))) (key kd (v (off s + r))) = true).
  { intros HO Hc Hr' Hab. apply Pos in HO. destruct HO as (p & q & Hp & Hq & Ha & Hx & Hb' & Hs & H1 & H2).
    apply Hg; [lia|].
    assert (Np : forall i, l < i <= h -> p <= i < q -> p <= i - 1 -> 
       ~ nan e (v (off s + i)) /\ ~ nan e (v (off s + i - 1)) /\ le e (v (off s + i - 1)) (v (off s + i))).
    { intros i Hi Hpi Hpi'. split; [apply Hx; lia|]. 
      replace (off s + i - 1) with (off s + (i - 1)) by lia. split; [apply Hx; lia|apply Hs; lia]. }
    apply Np; [lia| |].
    - destruct Hc as [C|[C|C]].
      + split; [rewrite (H1 C); lia|]. destruct (Z_lt_le_dec r q); [assumption|exfalso].
        assert (N := Hb' r ltac:(lia)). destruct (Z.eq_dec r h) as [->|].
        * destruct (S1 C) as (_ & _ & S). apply (Hnf _ (S ltac:(lia))). exact N.
        * assert (G := Hab (r + 1) ltac:(lia)). apply Hg in G; [|lia]. destruct G as (_ & G & _).
          replace (off s + (r + 1) - 1) with (off s + r) in G by lia. contradiction.
      + rewrite (H2 C). destruct (S2 C) as (E1 & _ & S). destruct (Z_lt_le_dec r p); [exfalso|lia].
        assert (N := Ha l ltac:(lia)). apply (Hnf _ (S ltac:(lia))). exact N.
      + rewrite contents_forall in C. unfold cellsOf in C. split.
        * destruct (Z_lt_le_dec r p); [exfalso|lia]. apply (C (off s + r)); [lia|]. apply Ha. lia.
        * destruct (Z_lt_le_dec r q); [lia|exfalso]. apply (C (off s + r)); [lia|]. apply Hb'. lia.
    - destruct Hc as [C|[C|C]].
      + rewrite (H1 C). lia.
      + destruct (Z_lt_le_dec (r - 1) p); [exfalso|lia]. destruct (S2 C) as (E1 & _ & S).
        assert (N := Ha l ltac:(lia)). apply (Hnf _ (S ltac:(lia))). exact N.
      + rewrite contents_forall in C. unfold cellsOf in C.
        destruct (Z_lt_le_dec (r - 1) p); [exfalso|lia]. apply (C (off s + (r - 1))); [lia|]. apply Ha. lia. }
  destruct Hr as [[-> Hr]|(Hr & Hbad & Hmax)].
  - assert (HG : forall i, l < i <= h -> ~ nan e (v (off s + i)) /\ ~ nan e (v (off s + i - 1)) /\ le e (v (off s + i - 1)) (v (off s + i))).
    { intros i Hi. apply Hg; [lia|]. apply nnb. exact (Hr i Hi). }
    split; [|split; [|congruence]].
    + intro Hopt. split; [|auto]. intros _. apply Pos.
      destruct (Good HG) as [N O].
      { intro. destruct Hopt as [E|E].
        - right. apply Hnf. apply S1; [exact E|lia].
        - left. apply Hnf. apply S2; [exact E|lia]. }
      exists l, (h + 1). split; [lia|]. split; [lia|]. split; [|split; [|split; [|split; [exact O|]]]].
      * intros i Hi. destruct Hopt as [E|E]; [destruct (S1 E); lia|]. apply Hnt. apply S2; auto.
      * intros i Hi. apply N. lia.
      * intros i Hi. destruct Hopt as [E|E]; [|destruct (S2 E); lia]. apply Hnt. apply S1; auto. lia.
      * split; intro E; [apply S1; exact E|destruct (S2 E); lia].
    + intros N1 N2 HF. split; [|auto]. intros _. apply Pos. rewrite contents_forall in HF. unfold cellsOf in HF.
      destruct (S3 N1 N2) as [-> ->].
      destruct (Good HG) as [N O]; [intro; left; apply HF; lia|].
      exists 0, (len s - 1 + 1). split; [lia|]. split; [lia|]. split; [intros; lia|]. split; [intros; apply HF; lia|].
      split; [intros; lia|]. split; [exact O|]. split; [auto|lia].
  - assert (Hmax' : forall i, r < i <= h -> leb kd (key kd (v (off s + i - 1))) (key kd (v (off s + i))) = true).
    { intros i Hi. apply nnb. exact (Hmax i Hi). }
    split; [|split].
    + intro Hopt. split; [lia|]. intro HO. exfalso. apply Hbad. apply NoBad; auto. tauto.
    + intros N1 N2 HF. split; [lia|]. intro HO. exfalso. apply Hbad. apply NoBad; auto.
    + intros _. split; [lia|]. apply Bad; assumption.
Qed.

(** The checkers, as programs. *)
Definition checkSteps (n : Z) : Z := 8 * n + 16.

Lemma swp_checkProg opt s v D : typedSlice pl e v s ->
  swp (procs pl tn e) D (Z.to_nat (checkSteps (len s))) (reg s) empty
    (fun r _ v' => v' = v /\ if isFloat e then checkSpecF e opt s v r else checkSpec e s v r)
    (checkProg pl opt e s) v.
Proof.
  intros Hty. assert (H0 : 0 <= len s) by apply Hty. unfold checkProg, checkLive. destruct (isFloat e) eqn:Ef.
  - eapply swp_use with (D1 := O); [apply swp_isSortedF; exact H0|lia|unfold checkSteps; lia|auto|auto|].
    cbv beta. intros r m v' _ [-> Hr]. split; [reflexivity|]. apply verdict_specF; auto.
  - eapply swp_use with (D1 := O); [apply swp_isSorted; exact H0|lia|unfold checkSteps; lia|auto|auto|].
    cbv beta. intros r m v' _ [-> Hr]. split; [reflexivity|]. apply verdict_spec; auto.
Qed.

End CheckApi.
