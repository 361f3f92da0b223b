(** * Slices that SortSlice and SortLen take quadratic time for *)

From Coq Require Import List ZArith Lia Bool Permutation.
From Verif Require Import Lang SeqLogic Base Scalar ScalarFacts Typed SeqOps TypedPart TypedPivot TypedShort TypedLong Slow.
Import ListNotations.
Open Scope Z_scope.
Local Arguments Z.mul : simpl never.
Local Arguments Z.add : simpl never.
Local Arguments Z.sub : simpl never.

Section Slow.
Context {Wd : word}.
Context {T K : Type}.
Variable kd : kind T K.
Variable tn : tuning.
Variable ok : K -> Prop.
Hypothesis LW : laws kd ok.
Notation bodyT := (body (Wd := Wd) kd tn).

Lemma filter_short {A} (f : A -> bool) l : (length (filter f l) <= length l)%nat.
Proof. induction l as [|x l IH]; cbn [filter length]; [lia|]. destruct (f x); cbn [length]; lia. Qed.

(** ** partOne when few elements are small *)

Section One.
Variables (sl : slice) (pv : K).

(** The body of the loop of partOne. *)
Definition one (st : label) : cmd (proc K) T (label + Z) :=
  match st with
    | LSecond l h =>
        let h := h - 1 in
        if h <=? l then done l
        else x <- sget sl h ;;
             if leb kd (key kd x) pv then goto (LSwap l h) else goto (LSecond l h)
    | LSwap l h => sswap sl l h ;;; goto (LNext l h)
    | LNext l h => goto (LStart (l + 1) (h - 1))
    | LStart l h =>
        if h <=? l then goto (LLast l h)
        else x <- sget sl h ;;
             if leb kd pv (key kd x) then
               y <- sget sl l ;;
               if ltb kd pv (key kd y) then goto (LSecond l h) else goto (LNext l h)
             else goto (LScan l h)
    | LScan l h =>
        x <- sget sl l ;;
        if leb kd pv (key kd x) then goto (LSwap l h)
        else let l := l + 1 in
             if h <=? l then done (l + 1) else goto (LScan l h)
    | LLast l h =>
        if l =? h then
          x <- sget sl h ;;
          if ltb kd (key kd x) pv then done (l + 1) else done l
        else done l
  end%cmd.

Lemma partOne_one : partOne kd sl pv = Loop (LStart 0 (len sl - 1)) one.
Proof. reflexivity. Qed.

Let o := off sl.
Notation at_ s i := (key kd (mem s (o + i))).

Lemma one_start l h s Q z : 0 <= l -> l < h -> h < len sl ->
  leb kd pv (at_ s h) = true -> ltb kd pv (at_ s l) = true ->
  ends bodyT (Loop (LSecond l h) one) s Q z -> ends bodyT (Loop (LStart l h) one) s Q z.
Proof.
  intros Hl Hlh Hh H1 H2 H. apply (ends_loop _ _ _ _ _ _ z 0); [|lia]. cbn [one].
  destruct (Z.leb_spec h l); [lia|]. apply (ends_bind _ _ _ _ _ 0 0); [|lia]. apply ends_sget; [lia| |lia].
  fold o. rewrite H1. apply (ends_bind _ _ _ _ _ 0 0); [|lia]. apply ends_sget; [lia| |lia].
  fold o. rewrite H2. apply ends_ret; [exact H|lia].
Qed.

Lemma one_down l p h s Q z : 0 <= l -> l < p -> p < h -> h <= len sl ->
  (forall i, p < i < h -> leb kd (at_ s i) pv = false) -> leb kd (at_ s p) pv = true ->
  ends bodyT (Loop (LSwap l p) one) s Q z -> ends bodyT (Loop (LSecond l h) one) s Q (z + (h - p)).
Proof.
  intros Hl Hp. remember (Z.to_nat (h - p)) as n eqn:En. revert h En.
  induction n as [|n IH]; intros h En Hh Hlen H1 H2 H; [lia|].
  apply (ends_loop _ _ _ _ _ _ (z + (h - 1 - p)) 1); [|lia]. cbn [one]. destruct (Z.leb_spec (h - 1) l); [lia|].
  apply (ends_bind _ _ _ _ _ 1 0); [|lia]. apply ends_sget; [lia| |lia]. fold o.
  destruct (Z.eq_dec (h - 1) p) as [E|E].
  - rewrite E, H2. apply ends_ret; [|lia]. eapply ends_mono; [exact H|lia|auto].
  - rewrite (H1 (h - 1)) by lia. apply ends_ret; [|lia]. apply IH; auto; try lia. intros i Hi. apply H1. lia.
Qed.

Lemma one_empty l h s (Q : Z -> shared T -> Prop) : 0 <= l -> l < h -> h <= len sl ->
  (forall i, l < i < h -> leb kd (at_ s i) pv = false) ->
  Q l s -> ends bodyT (Loop (LSecond l h) one) s Q (h - l - 1).
Proof.
  intros Hl. remember (Z.to_nat (h - l)) as n eqn:En. revert h En.
  induction n as [|n IH]; intros h En Hh Hlen H1 H; [lia|].
  destruct (Z.eq_dec (h - 1) l) as [E|E].
  - apply (ends_loop _ _ _ _ _ _ 0 0); [|lia]. cbn [one]. destruct (Z.leb_spec (h - 1) l); [|lia].
    apply ends_ret; [split; [exact H|lia]|lia].
  - apply (ends_loop _ _ _ _ _ _ (h - 1 - l - 1) 1); [|lia]. cbn [one]. destruct (Z.leb_spec (h - 1) l); [lia|].
    apply (ends_bind _ _ _ _ _ 1 0); [|lia]. apply ends_sget; [lia| |lia]. fold o.
    rewrite (H1 (h - 1)) by lia. apply ends_ret; [|lia]. apply IH; auto; try lia. intros i Hi. apply H1. lia.
Qed.

Lemma one_swap l p s Q z : 0 <= l < len sl -> 0 <= p < len sl ->
  (forall s1, (forall x, mem s1 (o + x) = mem s (o + sw l p x)) -> ends bodyT (Loop (LStart (l + 1) (p - 1)) one) s1 Q z) ->
  ends bodyT (Loop (LSwap l p) one) s Q z.
Proof.
  intros Hl Hp H. apply (ends_loop _ _ _ _ _ _ z 0); [|lia]. cbn [one]. apply (ends_bind _ _ _ _ _ 0 0); [|lia].
  unfold sswap.
  apply (ends_bind _ _ _ _ _ 0 0); [|lia]. apply ends_sget; [lia| |lia].
  apply (ends_bind _ _ _ _ _ 0 0); [|lia]. apply ends_sget; [lia| |lia].
  apply (ends_bind _ _ _ _ _ 0 0); [|lia]. apply ends_sset; [lia| |lia].
  apply ends_sset; [lia| |lia]. apply ends_ret; [|lia].
  apply (ends_loop _ _ _ _ _ _ z 0); [|lia]. cbn [one]. apply ends_ret; [|lia]. apply H. intro x. cbn [mem]. fold o.
  unfold upd, sw. repeat match goal with |- context [?a =? ?b] => destruct (Z.eqb_spec a b) end; subst; try lia; try reflexivity; f_equal; lia.
Qed.

Lemma one_low ps : forall l h s, 0 <= l -> desc l h ps -> h < len sl ->
  (forall i, In i ps -> leb kd (at_ s i) pv = true) ->
  (forall i, l <= i <= h -> ~ In i ps -> ltb kd pv (at_ s i) = true /\ leb kd pv (at_ s i) = true /\ leb kd (at_ s i) pv = false) ->
  ends bodyT (Loop (LStart l h) one) s
    (fun k s1 => k = l + Z.of_nat (length ps) /\ forall x, mem s1 (o + x) = mem s (o + sigma ps l x))
    (h - l - 1 - 2 * Z.of_nat (length ps)).
Proof.
  induction ps as [|p ps IH]; intros l h s Hl Hd Hh HL HH; cbn [desc length sigma] in *.
  - apply one_start; [lia|lia|lia|apply HH; auto; lia|apply HH; auto; lia|].
    eapply ends_mono; [apply (one_empty l h s (fun k s1 => k = l /\ s1 = s)); auto; try lia|lia|].
    + intros i Hi. apply HH; [lia|auto].
    + intros k s1 [-> ->]. split; [lia|reflexivity].
  - destruct Hd as [Hp Hd]. assert (D := desc_lt _ _ _ Hd).
    assert (Hin : forall i, In i ps -> l + 1 < i < p - 1) by (intros i Hi; assert (Y := desc_in _ _ _ _ Hd Hi); lia).
    assert (HN : forall i, i = l \/ p < i -> ~ In i (p :: ps)) by (intros i Hi [E|Hj]; [lia|specialize (Hin i Hj); lia]).
    apply one_start; [lia|lia|lia|apply HH; [lia|apply HN; lia]|apply HH; [lia|apply HN; lia]|].
    eapply ends_mono; [apply (one_down l p h s (fun k s1 => k = l + 1 + Z.of_nat (length ps) /\ forall x, mem s1 (o + x) = mem s (o + sw l p (sigma ps (l + 1) x)))
      (p - 1 - (l + 1) - 1 - 2 * Z.of_nat (length ps))); try lia| |].
    + intros i Hi. apply HH; [lia|apply HN; lia].
    + apply HL. left. reflexivity.
    + apply one_swap; [lia|lia|]. intros s1 E1.
      eapply ends_mono; [apply (IH (l + 1) (p - 1) s1); try lia; [exact Hd| |]|lia|].
      * intros i Hi. specialize (Hin i Hi). rewrite E1, sw_other by lia. apply HL. right. exact Hi.
      * intros i Hi Hni. rewrite E1, sw_other by lia. apply HH; [lia|]. intros [E|Hj]; [lia|auto].
      * intros k s2 [-> E2]. exact (conj eq_refl (fun x => eq_trans (E2 x) (E1 _))).
    + lia.
    + intros k s2 [-> E2]. split; [lia|exact E2].
Qed.

Lemma partOne_low ps s : desc 0 (len sl - 1) ps ->
  (forall i, In i ps -> leb kd (at_ s i) pv = true) ->
  (forall i, 0 <= i < len sl -> ~ In i ps -> ltb kd pv (at_ s i) = true /\ leb kd pv (at_ s i) = true /\ leb kd (at_ s i) pv = false) ->
  ends bodyT (partOne kd sl pv) s
    (fun k s1 => k = Z.of_nat (length ps) /\ forall x, mem s1 (o + x) = mem s (o + sigma ps 0 x))
    (len sl - 2 - 2 * Z.of_nat (length ps)).
Proof.
  intros Hd HL HH. rewrite partOne_one. eapply ends_mono; [apply (one_low ps 0 (len sl - 1) s)|lia|]; auto; try lia.
  - intros i Hi. apply HH. lia.
Qed.

End One.

(** ** The pivot when more than half of the samples are the smallest element *)

Lemma swp_pivot_low s v D b first step last :
  let m := nsamples kd 6 in
  2 * m <= len s -> len s < 2 * wq -> minMaxSample (uw (len s)) m = (first, step, last) ->
  (forall i, 0 <= i < len s -> ok (key kd (v (off s + i))) /\ leb kd b (key kd (v (off s + i))) = true) -> ok b ->
  (forall j, 2 <= j < m -> leb kd (key kd (v (off s + (first + j * step)))) b = true) ->
  swp bodyT D (Z.to_nat cPivot) (reg s) (fun _ => False)
    (fun pv _ v' => v' = v /\ ok pv /\ leb kd pv b = true /\ leb kd b pv = true)
    (pivot kd s m) v.
Proof.
  intros m Hl Hb E Hok Hokb Hlow. unfold pivot.
  assert (Hm : m = 6 /\ even kd = true \/ m = 5 /\ even kd = false).
  { unfold m, nsamples. destruct (even kd); auto. }
  assert (Hm5 : 5 <= m <= 8) by lia.
  rewrite uw_small in E |- * by lia.
  destruct (minMaxSample_ok (Wd := Wd) (len s) m ltac:(lia) ltac:(lia) ltac:(lia)) as (f1 & st1 & E' & Hf & Hst & Hlast).
  rewrite E' in E. injection E as <- <- _.
  rewrite E'. apply swp_bind.
  eapply swp_apply; [apply (swp_samples kd bodyT s m f1 st1 v D); lia|lia|unfold cPivot; lia|auto|auto|].
  cbv beta. intros smp n1 v1 [-> ->] _ Hn1.
  set (vl := fun j => key kd (v (off s + (f1 + (m - 1 - j) * st1)))).
  assert (Hpos : forall j, 0 <= j < m -> 0 <= f1 + (m - 1 - j) * st1 < len s) by (intros; nia).
  assert (Hvl : forall j, 0 <= j < m -> ok (vl j)) by (intros; unfold vl; apply Hok, Hpos; assumption).
  eapply (swp_local bodyT (fun _ => Panic) D n1 (Z.to_nat (cIns m)) m _ _
    (fun vl' => bubble (ltb kd) (seg vl 0 m) (seg vl' 0 m) /\ ascending (ltb kd) 0 m vl')
    _ _ _ vl v (fun _ => eq_refl)).
  { eapply swp_use; [apply (swp_insertion (fun _ => Panic) (ltb kd) ok (law_asym _ _ LW)) with (s := Slice 0 m) (v0 := vl) (D := O)|..].
    - intros x y z Hx Hy Hz H1 H2. apply (le_nlt kd ok LW); auto. apply (law_trans _ _ LW x y z); auto; apply (nlt_le kd ok LW); auto.
    - simpl. lia.
    - simpl. intros i Hi. apply Hvl. lia.
    - lia.
    - simpl. lia.
    - unfold reg; simpl. intros; lia.
    - unfold reg; simpl. intros; lia.
    - change (off (Slice 0 m)) with 0. change (len (Slice 0 m)) with m. rewrite Z.add_0_l. intros a k v' _ H. exact H. }
  { unfold cPivot, cIns in *. nia. }
  intros vl' k Hk [Hbub Hasc].
  assert (Hperm := bubble_perm _ _ _ Hbub).
  assert (Hvl' : forall j, 0 <= j < m -> ok (vl' j) /\ leb kd b (vl' j) = true).
  { apply (permR_forall 0 m vl vl' (fun x => ok x /\ leb kd b x = true)); [apply permR_seg; exact Hperm|].
    intros j Hj. unfold vl. apply Hok, Hpos, Hj. }
  assert (Hle : forall i j, 0 <= i -> i <= j -> j < m -> leb kd (vl' i) (vl' j) = true).
  { intros i j Hi Hij Hj. destruct (Z.eq_dec i j) as [->|]; [apply (le_refl kd ok LW); apply Hvl'; lia|].
    apply (nlt_le kd ok LW); [apply Hvl'; lia..|]. apply Hasc; lia. }
  (* the m - 2 smallest samples *)
  assert (Hsm : forall c, 0 <= c < m - 2 -> leb kd (vl' c) b = true).
  { intros c Hc. destruct (leb kd (vl' c) b) eqn:Ec; [reflexivity|]. exfalso.
    set (f := fun x => leb kd x b).
    assert (C1 : (length (filter f (seg vl 0 m)) >= Z.to_nat (m - 2))%nat).
    { rewrite <- (seg_app vl 0 (m - 2) m) by lia. rewrite filter_app, app_length, (filter_all f (seg vl 0 (m - 2))).
      - rewrite seg_length. lia.
      - intros x Hx. apply In_seg in Hx. destruct Hx as (i & Hi & <-). unfold f, vl. apply Hlow. lia. }
    assert (C2 : (length (filter f (seg vl' 0 m)) <= Z.to_nat c)%nat).
    { rewrite <- (seg_app vl' 0 c m) by lia. rewrite filter_app, app_length.
      assert (F0 : filter f (seg vl' c m) = []).
      { assert (G : forall x, In x (seg vl' c m) -> f x = false).
        { intros x Hx. apply In_seg in Hx. destruct Hx as (i & Hi & <-). unfold f. destruct (leb kd (vl' i) b) eqn:Ei; [|reflexivity].
          rewrite <- Ec. symmetry. apply (law_trans _ _ LW _ (vl' i)); [apply Hvl'; lia|apply Hvl'; lia|exact Hokb|apply Hle; lia|exact Ei]. }
        clear - G. induction (seg vl' c m) as [|x l IH]; [reflexivity|]. cbn [filter]. rewrite (G x (or_introl eq_refl)).
        apply IH. intros y Hy. apply G. right. exact Hy. }
      rewrite F0. cbn [length]. assert (X := filter_short f (seg vl' 0 c)). rewrite seg_length in X. lia. }
    rewrite (filter_perm_length f _ _ Hperm) in C2. lia. }
  rewrite shiftr1. destruct Hm as [[Em Ee]|[Em Ee]]; rewrite Ee.
  - assert (Hd : m / 2 = 3) by (rewrite Em; reflexivity). rewrite Hd.
    rewrite !lget_seg by lia. apply swp_ret. split; [reflexivity|]. replace (3 - 1) with 2 by lia.
    assert (O2 := Hvl' 2 ltac:(lia)). assert (O3 := Hvl' 3 ltac:(lia)). assert (L2 := Hsm 2 ltac:(lia)). assert (L3 := Hsm 3 ltac:(lia)).
    destruct (law_mean _ _ LW Ee (vl' 2) (vl' 3)) as [Hk1 Hk2]; [apply O2|apply O3|]. destruct O2 as [O2 B2], O3 as [O3 B3].
    split; [exact Hk1|]. destruct Hk2 as [[H2 H3]|[H2 H3]]; split.
    + apply (law_trans _ _ LW _ (vl' 3)); auto.
    + apply (law_trans _ _ LW _ (vl' 2)); auto.
    + apply (law_trans _ _ LW _ (vl' 2)); auto.
    + apply (law_trans _ _ LW _ (vl' 3)); auto.
  - assert (Hd : m / 2 = 2) by (rewrite Em; reflexivity). rewrite Hd.
    rewrite !lget_seg by lia. apply swp_ret. split; [reflexivity|].
    assert (O2 := Hvl' 2 ltac:(lia)). assert (L2 := Hsm 2 ltac:(lia)). destruct O2 as [O2 B2]. auto.
Qed.

(** ** longX on a slice arranged against it *)

Lemma mms_gap n m : m = 5 \/ m = 6 -> 48 <= n -> n < 4 * wq ->
  exists first step last, minMaxSample n m = (first, step, last) /\ 0 <= first /\ 3 <= step /\ first + (m - 1) * step <= n - 2.
Proof.
  intros Hm Hn Hb. rewrite minMaxSample_plain by lia. unfold mmsPlain.
  assert (Hd := Z.div_mod n m ltac:(lia)). assert (Hr := Z.mod_pos_bound n m ltac:(lia)).
  destruct (half (n - (m - 1) * (n / m))) as (t & Et & Ht). destruct (half (n - (m - 1) * (n / m) - (m - 1))) as (t' & Et' & Ht').
  rewrite Et, Et'. set (q := n / m) in *. set (r := n mod m) in *. clearbody q r.
  destruct (_ && _); [exists t', (q + 1)|exists t, q]; eexists; (split; [reflexivity|]); destruct Hm; subst m; lia.
Qed.

Definition low : Z := if even kd then 4 else 3.
Definition lows (first step : Z) : list Z :=
  if even kd then [first + 5 * step; first + 4 * step; first + 3 * step; first + 2 * step]
  else [first + 4 * step; first + 3 * step; first + 2 * step].

Lemma lows_length f st : Z.of_nat (length (lows f st)) = low.
Proof. unfold lows, low. destruct (even kd); reflexivity. Qed.

Variables (N : Z) (emb : Z -> T).
Hypothesis Eok : forall i, 0 <= i < N -> ok (key kd (emb i)).
Hypothesis Elt : forall i j, 0 <= i -> i < j -> j < N -> ltb kd (key kd (emb i)) (key kd (emb j)) = true.

Lemma Ele i j : 0 <= i -> i <= j -> j < N -> leb kd (key kd (emb i)) (key kd (emb j)) = true.
Proof.
  intros Hi Hij Hj. destruct (Z.eq_dec i j) as [->|Ne]; [apply (le_refl kd ok LW); apply Eok; lia|].
  apply (lt_le kd ok LW); [apply Eok; lia..|apply Elt; lia].
Qed.

Lemma Enle i j : 0 <= i -> i < j -> j < N -> leb kd (key kd (emb j)) (key kd (emb i)) = false.
Proof. intros. rewrite (law_le _ _ LW) by (apply Eok; lia). rewrite Elt by lia. reflexivity. Qed.

Hypothesis HIns : 9 <= maxIns kd tn.
Hypothesis HRec : 2 * maxIns kd tn < maxRec kd tn.
Variable B : Z.
Hypothesis HB : maxRec kd tn + 4 <= B.
Hypothesis HB' : 48 <= B.

Lemma slow_long : forall n base, 0 <= n -> 0 <= base -> base + n <= N -> n < 2 * wq ->
  exists a : Z -> Z, (forall x, 0 <= x < n -> base <= a x < base + n) /\
    forall o s z, B <= n -> (forall x, 0 <= x < n -> mem s (o + x) = emb (a x)) -> 8 * z <= (n - B) * (n - B) ->
      lasts bodyT (long kd tn (Slice o n) false) s z.
Proof.
  intro n. remember (Z.to_nat n) as fuel eqn:Ef. assert (Hf : (Z.to_nat n <= fuel)%nat) by lia. clear Ef. revert n Hf.
  induction fuel as [|fuel IH]; intros n Hf base Hn Hbase HN Hw.
  { exists (fun _ => base). split; [intros; lia|]. intros. lia. }
  destruct (Z.le_gt_cases n B) as [C|C].
  { exists (fun _ => base). split; [intros; lia|]. intros o s z H1 _ H2. apply lasts_enough. nia. }
  set (m := nsamples kd 6).
  assert (Hm : m = 6 /\ even kd = true /\ low = 4 \/ m = 5 /\ even kd = false /\ low = 3).
  { unfold m, nsamples, low. destruct (even kd); auto. }
  destruct (IH (n - low) ltac:(lia) (base + 1) ltac:(lia) ltac:(lia) ltac:(lia) ltac:(lia)) as (b & Hb & Hrun).
  destruct (mms_gap n m) as (f & st & la & Em & Hf0 & Hst & Hla); [lia|lia|lia|].
  set (ps := lows f st). assert (Lps : Z.of_nat (length ps) = low) by apply lows_length.
  assert (Hd : desc 0 (n - 1) ps).
  { unfold ps, lows. destruct Hm as [(E1 & -> & E3)|(E1 & -> & E3)]; rewrite E1 in Hla; cbn [desc]; lia. }
  set (F := fun x => if x <? low then base else b (x - low)).
  assert (HF0 : forall x, 0 <= x < low -> F x = base) by (intros x Hx; unfold F; destruct (Z.ltb_spec x low); lia).
  assert (HF1 : forall x, low <= x < n -> F x = b (x - low) /\ base + 1 <= F x < base + n).
  { intros x Hx; unfold F; destruct (Z.ltb_spec x low); [lia|]. split; [reflexivity|]. specialize (Hb (x - low)). lia. }
  assert (HF : forall x, 0 <= x < n -> base <= F x < base + n).
  { intros x Hx. destruct (Z.lt_ge_cases x low); [rewrite HF0 by lia; lia|]. specialize (HF1 x). lia. }
  exists (fun x => F (tau ps 0 x)). split.
  { intros x Hx. apply HF. apply (tau_range ps n 0 (n - 1)); auto; lia. }
  intros o s z _ Hmem Hz. set (sl := Slice o n).
  assert (Hlow : forall i, In i ps -> mem s (o + i) = emb base /\ 0 <= i < n).
  { intros i Hi. assert (D := desc_in _ _ _ _ Hd Hi). split; [|lia]. rewrite Hmem by lia.
    rewrite HF0; [reflexivity|]. assert (Y := tau_low ps 0 (n - 1) i Hd Hi). lia. }
  assert (Hhigh : forall i, 0 <= i < n -> ~ In i ps -> exists j, base + 1 <= j < base + n /\ mem s (o + i) = emb j).
  { intros i Hi Hni. exists (F (tau ps 0 i)). split; [|apply Hmem; exact Hi]. apply HF1.
    assert (R := tau_range ps n 0 (n - 1) i Hd ltac:(lia) ltac:(lia) Hi). split; [|lia].
    destruct (Z.lt_ge_cases (tau ps 0 i) low) as [Y|Y]; [|exact Y]. exfalso. apply Hni.
    rewrite <- (sigma_tau ps 0 i). apply (sigma_low ps 0 (n - 1)); [exact Hd|lia]. }
  assert (Hall : forall i, 0 <= i < n -> exists j, base <= j < base + n /\ mem s (o + i) = emb j).
  { intros i Hi. eexists. split; [|apply Hmem; exact Hi]. apply HF. apply (tau_range ps n 0 (n - 1)); auto; lia. }
  rewrite (long_unfold kd tn). apply lasts_loop.
  apply (lasts_bind bodyT _ _ _ (n - 2 - 2 * low) (z - (n - 2 - 2 * low))); [|lia].
  unfold longBody at 1. change nsLong with 6. fold m.
  (* the pivot *)
  apply (ends_bind _ _ _ _ _ 0 (n - 2 - 2 * low)); [|lia].
  eapply ends_mono.
  { eapply (swp_ends bodyT O _ _ _ _ _ s 0); [lia|].
    apply (swp_pivot_low sl (mem s) O (key kd (emb base)) f st la); cbn [len off sl].
    - fold m. lia.
    - lia.
    - fold m. rewrite uw_small by lia. exact Em.
    - intros i Hi. destruct (Hall i Hi) as (j & Hj & ->). split; [apply Eok; lia|apply Ele; lia].
    - apply Eok. lia.
    - fold m. intros j Hj. destruct (Hlow (f + j * st)) as [-> _]; [|apply Ele; lia].
      unfold ps, lows. destruct Hm as [(E1 & -> & E3)|(E1 & -> & E3)]; rewrite E1 in Hj; cbn [In].
      + assert (X : j = 2 \/ j = 3 \/ j = 4 \/ j = 5) by lia. destruct X as [->|[->|[->| ->]]]; tauto.
      + assert (X : j = 2 \/ j = 3 \/ j = 4) by lia. destruct X as [->|[->| ->]]; tauto. }
  { lia. }
  cbv beta. intros pv s1 (k0 & E1 & Hpv & Hpl & Hpb).
  (* the partition *)
  apply (ends_bind _ _ _ _ _ (n - 2 - 2 * low) 0); [|lia].
  eapply ends_mono.
  { apply (partOne_low sl pv ps s1); cbn [len off sl]; [exact Hd| |]; rewrite E1.
    - intros i Hi. destruct (Hlow i Hi) as [-> _]. exact Hpb.
    - intros i Hi Hni. destruct (Hhigh i Hi Hni) as (j & Hj & ->).
      assert (Ob := Eok base ltac:(lia)). assert (Oj := Eok j ltac:(lia)).
      assert (X : leb kd (key kd (emb j)) pv = false).
      { destruct (leb kd (key kd (emb j)) pv) eqn:X; [|reflexivity]. rewrite <- (Enle base j) by lia. symmetry.
        apply (law_trans _ _ LW _ pv); auto. }
      assert (Y : ltb kd pv (key kd (emb j)) = true).
      { rewrite (law_le _ _ LW) in X by auto. apply negb_false_iff in X. exact X. }
      split; [exact Y|]. split; [apply (lt_le kd ok LW); auto|exact X]. }
  { change (len sl) with n. rewrite Lps. lia. }
  cbv beta. cbn [len off sl]. intros k s2 [-> E2]. rewrite Lps in *.
  assert (M2 : forall x, 0 <= x < n -> mem s2 (o + x) = emb (F x)).
  { intros x Hx. rewrite E2, E1, Hmem; [rewrite tau_sigma; reflexivity|].
    apply (sigma_range ps n 0 (n - 1)); auto; lia. }
  (* the two parts *)
  apply (ends_bind _ _ _ _ _ 0 0); [|lia].
  unfold split, reslice. cbn [len off sl]. unfold sl. cbn [len off].
  destruct (Z.ltb_spec low (n - low)) as [L|L]; [|lia].
  replace ((0 <=? 0) && (0 <=? low) && (low <=? n)) with true by (symmetry; rewrite !andb_true_iff, !Z.leb_le; lia).
  replace ((0 <=? low) && (low <=? n) && (n <=? n)) with true by (symmetry; rewrite !andb_true_iff, !Z.leb_le; lia).
  apply (ends_bind _ _ _ _ _ 0 0); [|lia]. apply ends_ret; [|lia].
  apply (ends_bind _ _ _ _ _ 0 0); [|lia]. apply ends_ret; [|lia].
  apply ends_ret; [|lia]. cbn [len off].
  destruct (Z.leb_spec (low - 0) (maxRec kd tn)); [|lia]. destruct (Z.ltb_spec (maxIns kd tn) (low - 0)); [lia|].
  apply (ends_bind _ _ _ _ _ 0 0); [|lia].
  eapply ends_mono.
  { eapply (swp_ends bodyT O _ _ _ _ _ s2 0); [lia|]. apply swp_frame.
    apply (swp_ins kd tn ok LW); [cbn [len]; lia|].
    intros i Hi. unfold reg in Hi. cbn [off len] in Hi. replace i with (o + (i - o)) by lia. rewrite M2 by lia.
    apply Eok. specialize (HF (i - o)). lia. }
  { lia. }
  cbv beta. intros _ s3 (k3 & _ & E3).
  destruct (Z.ltb_spec (maxRec kd tn) (n - low)); [|lia]. apply ends_ret; [|lia].
  (* the rest *)
  destruct (Z.le_gt_cases (z - (n - 2 - 2 * low)) 0); [apply lasts_enough; assumption|].
  rewrite <- (long_unfold kd tn). apply Hrun.
  - nia.
  - intros x Hx. rewrite E3 by (unfold reg; cbn [off len]; lia). rewrite <- Z.add_assoc, M2 by lia.
    f_equal. destruct (HF1 (low + x)) as [-> _]; [lia|]. f_equal. lia.
  - nia.
Qed.

End Slow.
