(** * Quadratic time of Sort: an order chosen against it *)

From Coq Require Import List ZArith Lia Bool Permutation.
From Verif Require Import Lang SeqLogic Base Scalar ScalarFacts Typed Lsw Spec SeqOps TypedPart TypedShort TypedLong Calls LswSeq LswPart LswLong
  Kinds KindsFacts TypedApi Guarantee Slow SlowTyped SlowTop.
Import ListNotations.
Open Scope Z_scope.
Local Arguments Z.mul : simpl never.
Local Arguments Z.add : simpl never.
Local Arguments Z.sub : simpl never.

Section Det.
Context {P T : Type}.
Variable body : P -> cmd P T unit.

Lemma ends_det {A} (c : cmd P T A) s Q z : ends body c s Q z -> forall Q' z', ends body c s Q' z' -> exists a s1, Q a s1 /\ Q' a s1.
Proof.
  induction 1 as [c s Q z a E Hq Hz|c s Q z c' s' E H IH]; intros Q' z' F.
  - destruct F as [a' E' Hq' Hz'|c' s' E' F].
    + rewrite E in E'. inversion E'; subst. eauto.
    + unfold exec_local in E'. rewrite E in E'. discriminate.
  - destruct F as [a' E' Hq' Hz'|c2 s2 E' F].
    + unfold exec_local in E. rewrite E' in E. discriminate.
    + rewrite E in E'. inversion E'; subst. eapply IH. exact F.
Qed.

End Det.

Section Same.
Context {Wd : word}.
Context {T : Type}.
Variable cap : Z.
Variable tn : tuning.
Variable meanI : Z -> Z -> Z.
Variables lo hi : Z.
Hypothesis Hlo : 0 <= lo.
Hypothesis Hhi : hi < cap.
(** The comparisons considered agree with [lt0] when one of the elements is in [Fz]. *)
Variable lt0 : T -> T -> bool.
Variable Fz : T -> Prop.
Hypothesis Hirr : forall x, lt0 x x = false.

Definition Cl (lt : T -> T -> bool) : Prop := forall x y, Fz x \/ Fz y -> lt x y = lt0 x y.
Definition on (s : shared T) (v : Z -> T) : Prop := forall i, lo <= i <= hi -> mem s i = v i.
Notation body lt := (lswBody lt cap tn meanI).

(** With all these comparisons, [f] takes the cells from [v] to the same values and returns the same, after at least [z] steps. *)
Definition fixed {A} (f : (T -> T -> bool) -> cmd lproc T A) (v : Z -> T) (Q : A -> (Z -> T) -> Prop) (z : Z) : Prop :=
  exists a v', Q a v' /\ forall lt s, Cl lt -> on s v -> ends (body lt) (f lt) s (fun a' s1 => a' = a /\ on s1 v') z.

Lemma fixed_ret {A} (a : A) v (Q : A -> (Z -> T) -> Prop) z : Q a v -> z <= 0 -> fixed (fun _ => Ret a) v Q z.
Proof. intros H Hz. exists a, v. split; [exact H|]. intros lt s _ Hs. apply ends_ret; auto. Qed.

Lemma fixed_mono {A} (f : _ -> cmd lproc T A) v (Q Q' : A -> (Z -> T) -> Prop) z z' : fixed f v Q z -> z' <= z ->
  (forall a w, Q a w -> Q' a w) -> fixed f v Q' z'.
Proof.
  intros (a & v' & Hq & H) Hz HQ. exists a, v'. split; [auto|]. intros lt s Hc Hs. eapply ends_mono; [apply H; assumption|exact Hz|auto].
Qed.

Lemma fixed_bind {A B} z1 z2 (f : _ -> cmd lproc T A) (g : _ -> A -> cmd lproc T B) v Q z :
  fixed f v (fun a w => fixed (fun lt => g lt a) w Q z2) z1 -> z <= z1 + z2 ->
  fixed (fun lt => Bind (f lt) (g lt)) v Q z.
Proof.
  intros (a & v' & (b & w & Hb & H') & H) Hz. exists b, w. split; [exact Hb|].
  intros lt s Hc Hs. eapply (ends_bind _ _ _ _ _ z1 z2); [|exact Hz].
  eapply ends_mono; [apply H; assumption|lia|]. cbv beta. intros a' s1 [-> H1]. apply H'; assumption.
Qed.

Lemma fixed_loop {S A} (I : S -> (Z -> T) -> Prop) (mu phi c : S -> Z) (Q : A -> (Z -> T) -> Prop) (b : _ -> S -> cmd lproc T (S + A)) :
  (forall x v, I x v -> 0 <= mu x /\ fixed (fun lt => b lt x) v (fun r w => match r with
     | inl y => I y w /\ mu y < mu x /\ phi x <= c x + phi y | inr a => Q a w /\ phi x <= c x end) (c x)) ->
  forall x v, I x v -> fixed (fun lt => Loop x (b lt)) v Q (phi x).
Proof.
  intros Hb x. remember (Z.to_nat (mu x)) as n eqn:En. assert (Hn : (Z.to_nat (mu x) <= n)%nat) by lia. clear En. revert x Hn.
  induction n as [n IH] using (well_founded_induction Wf_nat.lt_wf). intros x Hn v Hi. destruct (Hb x v Hi) as (Hm & r & v' & Hr & H).
  destruct r as [y|a].
  - destruct Hr as (Hy & Hlt & Hphi). assert (Hmy := proj1 (Hb y v' Hy)).
    destruct (IH (Z.to_nat (mu y)) ltac:(lia) y ltac:(lia) v' Hy) as (a & w & Hq & H'). exists a, w. split; [exact Hq|].
    intros lt s Hc Hs. eapply (ends_loop _ _ _ _ _ _ (phi x - c x) (c x)); [|lia]. eapply ends_mono; [apply H; assumption|lia|].
    cbv beta. intros r s1 [-> H1]. eapply ends_mono; [apply H'; assumption|lia|auto].
  - destruct Hr as (Hq & Hphi). exists a, v'. split; [exact Hq|].
    intros lt s Hc Hs. eapply (ends_loop _ _ _ _ _ _ (phi x - c x) (c x)); [|lia]. eapply ends_mono; [apply H; assumption|lia|].
    cbv beta. intros r s1 [-> H1]. split; [split; [reflexivity|exact H1]|lia].
Qed.

Lemma ends_cget (lt : T -> T -> bool) i s (Q : T -> shared T -> Prop) z : 0 <= i < cap -> Q (mem s i) s -> z <= 1 -> ends (body lt) (cget cap i) s Q z.
Proof.
  intros Hi H Hz. unfold cget. destruct (Z.leb_spec 0 i); [|lia]. destruct (Z.ltb_spec i cap); [|lia]. cbn [andb].
  eapply ends_later; [reflexivity|]. apply ends_ret; [exact H|lia].
Qed.

Lemma ends_cset (lt : T -> T -> bool) i x s (Q : unit -> shared T -> Prop) z : 0 <= i < cap ->
  Q tt (Sh (upd (mem s) i x) (ngor s) (maxg s) (chans s)) -> z <= 1 -> ends (body lt) (cset cap i x) s Q z.
Proof.
  intros Hi H Hz. unfold cset. destruct (Z.leb_spec 0 i); [|lia]. destruct (Z.ltb_spec i cap); [|lia]. cbn [andb].
  eapply ends_later; [reflexivity|]. apply ends_ret; [exact H|lia].
Qed.

Lemma fixed_lsw i k r q v (Q : bool -> (Z -> T) -> Prop) z :
  lo <= i <= hi -> lo <= k <= hi -> lo <= r <= hi -> lo <= q <= hi -> Fz (v i) \/ Fz (v k) ->
  (lt0 (v i) (v k) = true -> Q true (if r =? q then v else swapv v r q)) ->
  (lt0 (v i) (v k) = false -> Q false v) -> z <= 2 ->
  fixed (fun lt => lsw lt cap i k r q) v Q z.
Proof.
  intros Hi Hk Hr Hq HF Ht Hf Hz.
  assert (E : forall lt : T -> T -> bool, lsw lt cap i k r q =
    (x <- cget cap i ;; y <- cget cap k ;;
     if lt x y then if r =? q then Ret true
       else a <- cget cap q ;; b <- cget cap r ;; cset cap r a ;;; cset cap q b ;;; Ret true
     else Ret false)%cmd) by (intro lt; apply lsw_strict; lia).
  exists (lt0 (v i) (v k)), (if lt0 (v i) (v k) then if r =? q then v else swapv v r q else v). split.
  { destruct (lt0 (v i) (v k)); auto. }
  intros lt s Hc Hs. rewrite E.
  apply (ends_bind _ _ _ _ _ 1 1); [|lia]. apply ends_cget; [lia| |lia].
  apply (ends_bind _ _ _ _ _ 1 0); [|lia]. apply ends_cget; [lia| |lia].
  rewrite !Hs by lia. rewrite (Hc _ _ HF). destruct (lt0 (v i) (v k)).
  2:{ apply ends_ret; [auto|lia]. }
  destruct (Z.eqb_spec r q) as [Erq|Erq].
  { apply ends_ret; [auto|lia]. }
  apply (ends_bind _ _ _ _ _ 0 0); [|lia]. apply ends_cget; [lia| |lia].
  apply (ends_bind _ _ _ _ _ 0 0); [|lia]. apply ends_cget; [lia| |lia].
  apply (ends_bind _ _ _ _ _ 0 0); [|lia]. apply ends_cset; [lia| |lia].
  apply (ends_bind _ _ _ _ _ 0 0); [|lia]. apply ends_cset; [lia| |lia].
  apply ends_ret; [|lia]. split; [reflexivity|]. intros j Hj. cbn [mem]. rewrite !Hs by lia. unfold swapv, upd.
  destruct (j =? q); [reflexivity|]. destruct (j =? r); [reflexivity|]. apply Hs. exact Hj.
Qed.

(** partOne *)
Lemma fixed_partOne l p h v : lo <= l -> l <= h + 1 -> h <= hi -> lo <= p <= hi -> Fz (v p) ->
  fixed (fun lt => lswPartOne lt cap l p h) v (fun _ _ => True) (h - l).
Proof.
  intros Hl Hlh Hh Hp HF. set (x0 := v p) in *.
  set (I := fun (st : label) (w : Z -> T) => w p = x0 /\ match st with
    | LStart a b => l <= a /\ b <= h /\ a <= b + 1
    | LScan a b | LSecond a b | LNext a b => l <= a /\ b <= h /\ a < b /\ (match st with LNext _ _ => True | LScan _ _ => b <> p | _ => a <> p end)
    | LLast a b => l <= a /\ b <= h
    | LSwap a b => False end).
  set (phi := fun st : label => match st with LStart a b => b - a | LLast _ _ => 0
     | LScan a b | LSecond a b | LNext a b | LSwap a b => b - a - 2 end).
  set (c := fun st : label => match st with LStart a b => if a <? b then 2 else 0 | LSecond a b => if b - 1 <=? a then 0 else 1 | LScan _ _ => 1 | _ => 0 end).
  change (h - l) with (phi (LStart l h)). unfold lswPartOne.
  apply (fixed_loop I (oneMu2) phi c).
  2:{ split; [reflexivity|]. lia. }
  clearbody x0. clear v. intros x v [Hx0 Hx].
  assert (Hsw : forall a b, a <> p -> b <> p -> (if a =? b then v else swapv v a b) p = x0).
  { intros a b H1 H2. destruct (a =? b); [exact Hx0|]. rewrite swapv_o by auto. exact Hx0. }
  destruct x as [a b|a b|a b|a b|a b|a b]; cbv [oneMu2 phi c] in *.
  - (* LSecond *) destruct Hx as (H1 & H2 & H3 & H4). split; [lia|].
    destruct (Z.leb_spec (b - 1) a) as [L|L]; [apply fixed_ret; [split; [exact Logic.I|lia]|lia]|].
    apply (fixed_bind 1 0); [|lia]. apply fixed_lsw; try lia; [rewrite Hx0; auto| |].
    + intro E. cbv iota. apply fixed_ret; [|lia]. cbv [I oneMu2 phi c]. split; [|lia]. split; [|lia]. apply Hsw; [|lia].
      intro; subst. rewrite Hirr in E. discriminate.
    + intro E. cbv iota. apply fixed_ret; [|lia]. cbv [I oneMu2 phi c]. split; [|lia]. split; [exact Hx0|lia].
  - destruct Hx.
  - (* LNext *) destruct Hx as (H1 & H2 & H3 & H4). split; [lia|]. apply fixed_ret; [|lia]. cbv [I oneMu2 phi c].
    split; [|lia]. split; [exact Hx0|lia].
  - (* LStart *) destruct Hx as (H1 & H2 & H3). split; [lia|]. destruct (Z.ltb_spec a b) as [L|L].
    2:{ apply fixed_ret; [|lia]. cbv [I oneMu2 phi c]. split; [|lia]. split; [exact Hx0|lia]. }
    apply (fixed_bind 2 0); [|lia]. apply fixed_lsw; try lia; [rewrite Hx0; auto| |]; intro E; cbv iota; rewrite ?Z.eqb_refl.
    + apply fixed_ret; [|lia]. cbv [I oneMu2 phi c]. split; [|lia]. split; [exact Hx0|]. repeat split; try lia.
      intro; subst. rewrite Hirr in E. discriminate.
    + apply (fixed_bind 0 0); [|lia]. apply fixed_lsw; try lia; [rewrite Hx0; auto| |]; intro E'; cbv iota; rewrite ?Z.eqb_refl.
      * apply fixed_ret; [|lia]. cbv [I oneMu2 phi c]. split; [|lia]. split; [exact Hx0|]. repeat split; try lia.
        intro; subst. rewrite Hirr in E'. discriminate.
      * apply fixed_ret; [|lia]. cbv [I oneMu2 phi c]. split; [|lia]. split; [exact Hx0|lia].
  - (* LScan *) destruct Hx as (H1 & H2 & H3 & H4). split; [lia|].
    apply (fixed_bind 1 0); [|lia]. apply fixed_lsw; try lia; [rewrite Hx0; auto| |]; intro E; cbv iota.
    + apply fixed_ret; [|lia]. cbv [I oneMu2 phi c]. split; [|lia]. split; [|lia]. apply Hsw; [lia|].
      intro; subst. rewrite Hirr in E. discriminate.
    + destruct (Z.leb_spec b (a + 1)) as [L|L]; [apply fixed_ret; [split; [exact Logic.I|lia]|lia]|].
      apply fixed_ret; [|lia]. cbv [I oneMu2 phi c]. split; [|lia]. split; [exact Hx0|lia].
  - (* LLast *) destruct Hx as (H1 & H2). split; [lia|]. destruct (Z.eqb_spec a b) as [L|L]; cbn [andb].
    2:{ apply fixed_ret; [split; [exact Logic.I|lia]|lia]. }
    destruct (negb (b =? p)).
    2:{ apply fixed_ret; [split; [exact Logic.I|lia]|lia]. }
    apply (fixed_bind 0 0); [|lia]. apply fixed_lsw; try lia; [rewrite Hx0; auto| |]; intro E; cbv iota;
      (apply fixed_ret; [split; [exact Logic.I|lia]|lia]).
Qed.

(** The samples *)
Lemma fixed_samples first step m v : 1 <= step -> lo <= first -> first + (m - 1) * step <= hi -> 1 <= m ->
  first + m * step < 2 * wq -> (forall j, 0 <= j < m -> Fz (v (first + j * step))) ->
  fixed (fun lt => lswSamples lt cap first step (first + (m - 1) * step)) v
    (fun _ w => (forall j, 0 <= j < m -> Fz (w (first + j * step))) /\ forall i, ~ stepReg first step m i -> w i = v i) 0.
Proof.
  intros Hst Hf Hl Hm Hw HF. unfold lswSamples. set (last := first + (m - 1) * step) in *.
  set (v0 := v) in *.
  set (ok := fun w : Z -> T => (forall j, 0 <= j < m -> Fz (w (first + j * step))) /\ forall i, ~ stepReg first step m i -> w i = v0 i).
  assert (Hok : forall w a b, ok w -> 0 <= a < m -> 0 <= b < m -> ok (swapv w (first + a * step) (first + b * step))).
  { intros w a b [W1 W2] Ha Hb. split.
    - intros j Hj. unfold swapv, upd. destruct (first + j * step =? first + b * step); [auto|]. destruct (first + j * step =? first + a * step); auto.
    - intros i Hi. rewrite swapv_o; [auto| |]; intro; subst; apply Hi; [exists a|exists b]; auto. }
  apply (fixed_loop (fun h w => ok w /\ exists j, 1 <= j <= m /\ h = first + j * step) (fun h => first + (m + 1) * step - h) (fun _ => 0) (fun _ => 0)).
  2:{ split; [split; [exact HF|auto]|]. exists 1. lia. }
  clear HF. intros h w (Hw' & j & Hj & ->). split; [nia|].
  destruct (Z.leb_spec (first + j * step) last) as [L|L].
  2:{ apply fixed_ret; [|lia]. split; [exact Hw'|lia]. }
  assert (Hjm : j < m) by (unfold last in *; nia).
  apply (fixed_bind 0 0); [|lia].
  apply fixed_mono with (Q := fun _ w1 => ok w1) (z := 0); [|lia|].
  - apply (fixed_loop (fun l w1 => ok w1 /\ exists j', 1 <= j' <= j /\ l = first + j' * step) (fun l => l - first) (fun _ => 0) (fun _ => 0)).
    2:{ split; [exact Hw'|]. exists j. lia. }
    intros l w1 (Hw1 & j' & Hj' & ->). split; [nia|].
    assert (R1 : lo <= first + j' * step <= hi) by (unfold last in *; nia).
    replace (first + j' * step - step) with (first + (j' - 1) * step) by lia.
    assert (R2 : lo <= first + (j' - 1) * step <= hi) by (unfold last in *; nia).
    apply (fixed_bind 0 0); [|lia]. apply fixed_lsw; try lia; [left; apply Hw1; lia| |]; intro E; cbv iota.
    + destruct (Z.eqb_spec (first + j' * step) (first + (j' - 1) * step)) as [X|_]; [nia|].
      assert (Hw2 := Hok w1 j' (j' - 1) Hw1 ltac:(lia) ltac:(lia)).
      destruct (Z.leb_spec (first + (j' - 1) * step) first) as [L1|L1]; (apply fixed_ret; [|lia]).
      * split; [exact Hw2|lia].
      * split; [|split; [nia|lia]]. split; [exact Hw2|]. exists (j' - 1). split; [nia|reflexivity].
    + apply fixed_ret; [|lia]. split; [exact Hw1|lia].
  - cbv beta. intros _ w1 Hw1. apply fixed_ret; [|lia].
    rewrite iw_small by nia. split; [|split; [nia|lia]]. split; [exact Hw1|]. exists (j + 1). split; [lia|lia].
Qed.

Lemma fixed_pivot f st la v : meanEven meanI -> 18 <= hi - lo + 1 -> 11 * hi + 29 < 20 * wq ->
  minMaxSample (hi + 1 - lo) 5 = (f, st, la) -> (forall j, 0 <= j < 5 -> Fz (v (lo + f + j * st))) ->
  fixed (fun lt => lswPivot lt cap meanI lo hi (nsLong - 1)) v (fun pv w => Fz (w pv)) 0.
Proof.
  intros HM Hl Hb Em HF. unfold lswPivot. change (nsLong - 1) with 5. rewrite uw_small by lia.
  destruct (minMaxSample_ok (Wd := Wd) (hi + 1 - lo) 5 ltac:(lia) ltac:(lia) ltac:(lia)) as (f' & st' & E & Hf & Hst & Hlast).
  rewrite Em in E. inversion E; subst f' st' la. clear E.
  destruct (minMaxSample_past (Wd := Wd) (hi + 1 - lo) 5 f st _ ltac:(lia) ltac:(lia) ltac:(lia) Em) as [P5 _]. specialize (P5 eq_refl).
  rewrite Em. set (first := lo + f) in *. replace (5 - 1) with 4 in * by lia.
  replace (lo + (f + 4 * st)) with (first + (5 - 1) * st) by (unfold first; lia).
  assert (Hlh : first + 4 * st <= hi) by (unfold first; nia).
  apply (fixed_bind 0 0); [|lia]. eapply fixed_mono; [apply fixed_samples; try (unfold first in *; lia); exact HF|lia|].
  cbv beta. intros _ w [Hw _].
  assert (W0 := Hw 0 ltac:(lia)). assert (W2 := Hw 2 ltac:(lia)). assert (W4 := Hw 4 ltac:(lia)).
  replace (first + 0 * st) with first in W0 by lia. replace (first + (5 - 1) * st) with (first + 4 * st) by lia.
  assert (Emn : meanI first (first + 4 * st) = first + 2 * st).
  { assert (2 * meanI first (first + 4 * st) = first + (first + 4 * st)); [|lia].
    apply HM; [unfold first; lia|unfold first; nia|unfold first in *; lia|].
    replace (first + (first + 4 * st)) with (2 * (first + 2 * st)) by lia. apply Z.even_spec. exists (first + 2 * st). reflexivity. }
  assert (Hfl : lo <= first) by (unfold first; lia).
  set (ok := fun w : Z -> T => Fz (w (first + 2 * st)) /\ Fz (w (first + 4 * st))).
  apply (fixed_bind 0 0); [|lia]. apply fixed_mono with (Q := fun _ w1 => ok w1) (z := 0); [|lia|].
  { apply fixed_lsw; try lia; [left; exact W0| |]; intro E.
    - destruct (Z.eqb_spec first lo) as [X|X]; [split; assumption|]. split; rewrite swapv_o by lia; assumption.
    - split; assumption. }
  cbv beta. clear w Hw W0 W2 W4. intros _ w [W2 W4].
  apply (fixed_bind 0 0); [|lia]. apply fixed_mono with (Q := fun _ w1 => Fz (w1 (first + 2 * st))) (z := 0); [|lia|].
  { apply fixed_lsw; try lia; [right; exact W4| |]; intro E.
    - destruct (Z.eqb_spec hi (first + 4 * st)) as [X|X]; [assumption|]. rewrite swapv_o by lia; assumption.
    - assumption. }
  cbv beta. intros _ w1 W. apply fixed_ret; [|lia]. rewrite Emn. exact W.
Qed.

End Same.

(** ** Against long *)

Lemma filter_perm {A} (f : A -> bool) l l' : Permutation l l' -> length (filter f l) = length (filter f l').
Proof.
  induction 1 as [|x l l' H IH|x y l|l l' l'' H1 IH1 H2 IH2]; cbn [filter]; [reflexivity|destruct (f x); cbn [length]; lia| |lia].
  destruct (f x); destruct (f y); reflexivity.
Qed.

Lemma filter_minus (f : Z -> bool) (a : Z) l : NoDup l -> (length (filter f l) <= length (filter (fun x => f x && negb (x =? a)%Z) l) + 1)%nat.
Proof.
  induction l as [|x l IH]; cbn [filter length]; intro H; [lia|]. inversion H as [|? ? Hx Hl]; subst. specialize (IH Hl).
  destruct (f x); cbn [andb]; [|exact IH]. destruct (Z.eqb_spec x a) as [->|Ne]; cbn [negb length]; [|lia].
  enough (E : filter (fun x => f x && negb (x =? a)) l = filter f l) by (rewrite E; lia).
  clear - Hx. induction l as [|y l IH]; [reflexivity|]. cbn [filter]. rewrite IH by (intro; apply Hx; right; assumption).
  destruct (Z.eqb_spec y a) as [->|Ne]; [exfalso; apply Hx; left; reflexivity|]. rewrite andb_true_r. reflexivity.
Qed.

Lemma filter_without (f : Z -> bool) (s l : list Z) : NoDup l ->
  (length (filter f l) <= length (filter (fun x => f x && negb (existsb (Z.eqb x) s)) l) + length s)%nat.
Proof.
  intro H. revert f. induction s as [|a s IH]; intro f; cbn [existsb length].
  - rewrite (filter_ext (fun x => f x && negb false) f); [lia|]. intro x. apply andb_true_r.
  - assert (H1 := filter_minus f a l H). specialize (IH (fun x => f x && negb (x =? a))). cbv beta in IH.
    rewrite (filter_ext (fun x => f x && negb ((x =? a) || existsb (Z.eqb x) s)) (fun x => f x && negb (x =? a) && negb (existsb (Z.eqb x) s))); [lia|].
    intro x. rewrite negb_orb. apply andb_assoc.
Qed.

Section Against.
Context {Wd : word}.
Variable cap : Z.
Variable tn : tuning.
Variable meanI : Z -> Z -> Z.
Hypothesis HM : meanEven meanI.
Notation maxIns := (maxLenInsFC tn).
Notation maxRec := (maxLenRecFC tn).
Hypothesis HIns : 9 <= maxIns.
Hypothesis HRec : 2 * maxIns < maxRec.

(** Elements compared by a key. *)
Definition byKey (A : Z -> Z) (x y : Z) : bool := A x <? A y.

Lemma byKey_weak A : weakOrder (byKey A).
Proof. unfold byKey. split; intros x y; [rewrite Z.ltb_lt, Z.ltb_ge; lia|]. intro z. rewrite !Z.ltb_ge. lia. Qed.

Notation body A := (lswBody (byKey A) cap tn meanI).

(** The elements of lo..hi not in [F]. *)
Definition free (F : Z -> bool) (v : Z -> Z) (lo hi : Z) : list Z := filter (fun x => negb (F x)) (seg v lo (hi + 1)).

Variable B : Z.
Hypothesis HB : maxRec + 2 <= B.
Hypothesis HB' : 48 <= B.

Lemma slow_lsw : forall N lo hi (v : Z -> Z) (F : Z -> bool) (A0 : Z -> Z) (b : Z),
  hi - lo + 1 <= N -> 0 <= lo -> hi < cap -> 11 * hi + 29 < 20 * wq -> NoDup (seg v lo (hi + 1)) ->
  B <= Z.of_nat (length (free F v lo hi)) -> (forall x, F x = true -> A0 x <= b) ->
  exists A : Z -> Z, (forall x, F x = true -> A x = A0 x) /\ (forall x, F x = false -> b < A x) /\
    forall s z, on lo hi s v ->
      10 * z <= (Z.of_nat (length (free F v lo hi)) - B) * (Z.of_nat (length (free F v lo hi)) - B) ->
      lasts (body A) (lswLong (byKey A) cap tn meanI lo hi false) s z.
Proof.
  intro N. induction (Z.lt_wf 0 N) as [N _ IH]. intros lo hi v F A0 b HN H0 Hcap Hb Hnd Hfree HA0.
  set (f := Z.of_nat (length (free F v lo hi))) in *.
  assert (Hlen : f <= hi - lo + 1).
  { unfold f, free in *. assert (X := filter_short (fun x => negb (F x)) (seg v lo (hi + 1))). rewrite seg_length in X. lia. }
  assert (Hs : 48 <= hi - lo + 1) by lia. 
  destruct (minMaxSample (hi + 1 - lo) 5) as [[fs st] la] eqn:Em.
  set (Sm := map (fun j => v (lo + fs + j * st)) [0; 1; 2; 3; 4]).
  set (F' := fun x => F x || existsb (Z.eqb x) Sm).
  set (A1 := fun x => if F x then A0 x else b + 1).
  set (R := fun x => if F' x then A1 x else b + 2).
  set (lt0 := byKey R). set (Fz := fun x => F' x = true).
  assert (HFF : forall x, F x = true -> F' x = true) by (intros x Hx; unfold F'; rewrite Hx; reflexivity).
  assert (HA1 : forall x, F' x = true -> A1 x <= b + 1).
  { intros x _. unfold A1. destruct (F x) eqn:E; [specialize (HA0 x E); lia|lia]. }
  assert (HCl : forall A, (forall x, F' x = true -> A x = A1 x) -> (forall x, F' x = false -> b + 1 < A x) -> Cl lt0 Fz (byKey A)).
  { intros A E1 E2 x y Hxy. unfold lt0, byKey, R, Fz in *. destruct (F' x) eqn:Ex; destruct (F' y) eqn:Ey.
    - rewrite !E1 by assumption. reflexivity.
    - rewrite (E1 x) by assumption. specialize (HA1 x Ex). specialize (E2 y Ey). destruct (Z.ltb_spec (A1 x) (A y)); destruct (Z.ltb_spec (A1 x) (b + 2)); lia.
    - rewrite (E1 y) by assumption. specialize (HA1 y Ey). specialize (E2 x Ex). destruct (Z.ltb_spec (A x) (A1 y)); destruct (Z.ltb_spec (b + 2) (A1 y)); lia.
    - destruct Hxy; discriminate. }
  assert (HE1 : forall A, (forall x, F' x = true -> A x = A1 x) -> forall x, F x = true -> A x = A0 x).
  { intros A E x Hx. rewrite E by auto. unfold A1. rewrite Hx. reflexivity. }
  assert (HE2 : forall A, (forall x, F' x = true -> A x = A1 x) -> (forall x, F' x = false -> b + 1 < A x) -> forall x, F x = false -> b < A x).
  { intros A E1 E2 x Hx. destruct (F' x) eqn:E; [rewrite E1 by assumption; unfold A1; rewrite Hx; lia|specialize (E2 x E); lia]. }
  assert (Hirr : forall x, lt0 x x = false) by (intro x; apply Z.ltb_irrefl).
  assert (Hc0 : consistent lt0 lt0) by (apply consistent_self, byKey_weak).
  assert (HS : forall j, 0 <= j < 5 -> Fz (v (lo + fs + j * st))).
  { intros j Hj. unfold Fz, F'. apply orb_true_iff. right. apply existsb_exists. exists (v (lo + fs + j * st)). split; [|apply Z.eqb_refl].
    unfold Sm. apply (in_map (fun j => v (lo + fs + j * st))). assert (X : j = 0 \/ j = 1 \/ j = 2 \/ j = 3 \/ j = 4) by lia. cbn [In]. lia. }
  (* the pivot *)
  set (s0 := Sh v 0 0 0).
  assert (Cl0 : Cl lt0 Fz lt0) by (intros x y _; reflexivity).
  assert (On0 : on lo hi s0 v) by (intros i _; reflexivity).
  destruct (fixed_pivot cap tn meanI lo hi H0 Hcap lt0 Fz fs st la v HM ltac:(lia) Hb Em HS) as (pv & v1 & HFpv & Hpiv).
  assert (P1 : pivoted lt0 lo hi 2 v pv v1).
  { destruct (ends_det _ _ _ _ _ (Hpiv lt0 s0 Cl0 On0) (fun pv s1 => exists m : nat, pivoted lt0 lo hi 2 v pv (mem s1)) 0) as (a & s1 & [-> H1] & k & H2).
    - apply (Slow.swp_ends (lswBody lt0 cap tn meanI) O (reg (rng lo hi)) (reg (rng lo hi)) (fun pv _ v' => pivoted lt0 lo hi 2 v pv v') (Z.to_nat cPivot2)); [lia|].
      apply (swp_pivotLong lt0 lt0 Hc0 cap tn meanI HM); [exact H0|lia|exact Hcap|exact Hb].
    - destruct H2 as (Hp & Hpv & E1 & E2). rewrite !H1 in E1, E2 by lia. split; [|split; [exact Hpv|split; assumption]].
      eapply permR_trans; [exact Hp|]. unfold permR. apply permL_ext. intros i Hi. apply In_zrange in Hi. apply H1. lia. }
  assert (Hpv : lo + 2 <= pv <= hi - 2) by apply P1.
  (* the partition *)
  set (s1 := Sh v1 0 0 0).
  assert (On1 : on lo hi s1 v1) by (intros i _; reflexivity).
  destruct (fixed_partOne cap tn meanI lo hi H0 Hcap lt0 Fz Hirr (lo + 1) pv (hi - 1) v1 ltac:(lia) ltac:(lia) ltac:(lia) ltac:(lia) HFpv) as (l & v2 & _ & Hpart).
  assert (P2 : lo + 1 <= l <= hi /\ permR lo (hi + 1) v v2 /\ forall i, lo <= i < l -> Fz (v2 i)).
  { destruct (ends_det _ _ _ _ _ (Hpart lt0 s1 Cl0 On1) (fun l s2 => exists m : nat,
        onePost2 lt0 (lo + 1) (hi - 1) pv v1 l (mem s2) /\ forall i, ~ wrOne (lo + 1) (hi - 1) pv i -> mem s2 i = v1 i) 0) as (a & s2 & [-> H1] & k & H2 & H3).
    - apply (Slow.swp_ends (lswBody lt0 cap tn meanI) O (rdOne (lo + 1) (hi - 1) pv) (wrOne (lo + 1) (hi - 1) pv)
        (fun l _ v' => onePost2 lt0 (lo + 1) (hi - 1) pv v1 l v' /\ forall i, ~ wrOne (lo + 1) (hi - 1) pv i -> v' i = v1 i)
        (Z.to_nat (cPartL (hi - 1 - (lo + 1) + 1)))); [lia|]. apply swp_frame.
      apply (swp_lswPartOne lt0 lt0 Hc0 cap); lia.
    - destruct H2 as (Hl & Hp & Evp & HL & HH). split; [lia|]. split.
      + eapply permR_trans; [apply P1|]. eapply permR_trans; [apply (permR_widen (lo + 1) (hi - 1 + 1) lo (hi + 1)); [lia|lia|lia|exact Hp|]|].
        * intros i Hi. symmetry. apply H3. unfold wrOne. lia.
        * unfold permR. apply permL_ext. intros i Hi. apply In_zrange in Hi. apply H1. lia.
      + intros i Hi. rewrite <- H1 by lia.
        assert (X : lt0 (v1 pv) (mem s2 i) = false).
        { destruct (Z.eq_dec i lo) as [->|Ne]; [|apply HL; lia]. rewrite H3 by (unfold wrOne; lia). apply P1. }
        unfold lt0, byKey in X. apply Z.ltb_ge in X. unfold Fz in *. unfold R in X. rewrite HFpv in X.
        destruct (F' (mem s2 i)); [reflexivity|]. specialize (HA1 _ HFpv). lia. }
  destruct P2 as (Hl & Hperm & Hleft).
  (* what is free afterwards *)
  set (f' := Z.of_nat (length (free F' v2 l hi))).
  assert (Hnd2 : NoDup (seg v2 l (hi + 1))).
  { change (Permutation (seg v2 lo (hi + 1)) (seg v lo (hi + 1))) in Hperm. assert (X : NoDup (seg v2 lo (hi + 1))) by (eapply Permutation_NoDup; [apply Permutation_sym; exact Hperm|exact Hnd]).
    rewrite <- (seg_app v2 lo l (hi + 1)) in X by lia. clear - X. induction (seg v2 lo l) as [|x L IHL]; [exact X|]. inversion X; auto. }
  assert (Hf' : f - 5 <= f').
  { assert (X := filter_without (fun x => negb (F x)) Sm (seg v lo (hi + 1)) Hnd). change (length Sm) with 5%nat in X. unfold f, f', free.
    assert (Y : length (filter (fun x => negb (F x) && negb (existsb (Z.eqb x) Sm)) (seg v lo (hi + 1))) = length (filter (fun x => negb (F' x)) (seg v2 l (hi + 1)))).
    { rewrite (filter_ext (fun x => negb (F x) && negb (existsb (Z.eqb x) Sm)) (fun x => negb (F' x))) by (intro x; unfold F'; rewrite negb_orb; reflexivity).
      change (Permutation (seg v2 lo (hi + 1)) (seg v lo (hi + 1))) in Hperm. rewrite <- (filter_perm _ _ _ Hperm).
      rewrite <- (seg_app v2 lo l (hi + 1)) by lia. rewrite filter_app, app_length.
      enough (E : filter (fun x => negb (F' x)) (seg v2 lo l) = []) by (rewrite E; reflexivity).
      destruct (filter (fun x => negb (F' x)) (seg v2 lo l)) as [|x L] eqn:E; [reflexivity|]. exfalso.
      assert (Z1 : In x (filter (fun x => negb (F' x)) (seg v2 lo l))) by (rewrite E; left; reflexivity).
      apply filter_In in Z1. destruct Z1 as [Z1 Z2]. apply In_seg in Z1. destruct Z1 as (i & Hi & <-). rewrite (Hleft i Hi) in Z2. discriminate. }
    lia. }
  assert (Hlen' : f' <= hi - l + 1).
  { unfold f', free. assert (X := filter_short (fun x => negb (F' x)) (seg v2 l (hi + 1))). rewrite seg_length in X. lia. }
  set (c := hi - 1 - (lo + 1)) in *.
  destruct (Z.le_gt_cases B f') as [HBf|HBf].
  2:{ (* the end is near *)
    set (A := fun x => if F' x then A1 x else b + 2).
    assert (E1 : forall x, F' x = true -> A x = A1 x) by (intros x Hx; unfold A; rewrite Hx; reflexivity).
    assert (E2 : forall x, F' x = false -> b + 1 < A x) by (intros x Hx; unfold A; rewrite Hx; lia).
    exists A. split; [apply HE1; exact E1|]. split; [apply HE2; assumption|].
    intros s z Hon Hz. assert (Hzc : z <= c) by (unfold c; nia). apply (lasts_mono _ _ _ c); [|exact Hzc].
    rewrite (llong_unfold (byKey A)). apply lasts_loop.
    set (rest := fun r : Z * Z + unit => _). clearbody rest. unfold llongBody.
    apply lasts_first. apply (lasts_bind _ _ _ _ 0 c); [|lia]. eapply ends_mono; [apply Hpiv; [apply HCl; assumption|exact Hon]|lia|].
    cbv beta. intros a s2 [-> Hon1]. apply (lasts_bind _ _ _ _ c 0); [|lia].
    eapply ends_mono; [apply Hpart; [apply HCl; assumption|exact Hon1]|lia|]. intros. apply lasts_enough. lia. }
  destruct (IH (hi - l + 1) ltac:(lia) l hi v2 F' A1 (b + 1)) as (A & E1 & E2 & Hrun); try assumption; try lia.
  exists A. split; [apply HE1; exact E1|]. split; [apply HE2; assumption|].
  intros s z Hon Hz. fold f' in Hrun.
  assert (HCA := HCl A E1 E2). assert (HcA : consistent (byKey A) (byKey A)) by (apply consistent_self, byKey_weak).
  rewrite (llong_unfold (byKey A)). apply lasts_loop.
  set (rest := fun r : Z * Z + unit => _).
  assert (Hz' : z - c <= 0 \/ 10 * (z - c) <= (f' - B) * (f' - B)) by (unfold c; nia).
  assert (Hgo : forall s, on l hi s v2 -> lasts (body A) (rest (inl (l, hi))) s (z - c)).
  { intros s' Hs'. destruct Hz' as [Hz'|Hz']; [apply lasts_enough; exact Hz'|]. unfold rest. rewrite <- (llong_unfold (byKey A)). apply Hrun; assumption. }
  assert (Hgo' : forall s, on l hi s v2 -> lasts (body A) (lswLong (byKey A) cap tn meanI l hi false) s (z - c)).
  { intros s' Hs'. destruct Hz' as [Hz'|Hz']; [apply lasts_enough; exact Hz'|]. apply Hrun; assumption. }
  destruct (Z.lt_ge_cases (l - 1 - lo) (hi - l)) as [Ls|Ls].
  - (* the rest is the longer part *)
    apply (lasts_bind _ _ _ _ c (z - c)); [|lia]. unfold llongBody.
    apply (ends_bind _ _ _ _ _ 0 c); [|lia]. eapply ends_mono; [apply Hpiv; [exact HCA|exact Hon]|lia|].
    cbv beta. intros a s2 [-> Hon1]. apply (ends_bind _ _ _ _ _ c 0); [|lia].
    eapply ends_mono; [apply Hpart; [exact HCA|exact Hon1]|lia|]. cbv beta. intros a s3 [-> Hon2].
    unfold lswSplit. cbv zeta. destruct (Z.ltb_spec (l - 1 - lo) (hi - l)) as [_|X]; [|lia].
    assert (Hon3 : on l hi s3 v2) by (intros i Hi; apply Hon2; lia).
    destruct (Z.ltb_spec (l - 1 - lo) maxRec) as [Lm|Lm].
    + apply (ends_bind _ _ _ _ _ 0 0); [|lia].
      eapply ends_mono.
      { eapply (Slow.swp_ends (body A) (Z.to_nat (Z.log2 (l - 1 - lo + 1) + 1)) _ _ _ _ _ s3 0); [lia|]. apply swp_frame.
        apply (swp_small2 (byKey A) (byKey A) HcA cap tn meanI HIns lo (l - 1)); lia. }
      { lia. }
      cbv beta. intros _ s4 (k & _ & E4).
      destruct (Z.leb_spec maxRec (hi - l)) as [_|X]; [|lia]. apply ends_ret; [|lia]. apply Hgo.
      intros i Hi. rewrite E4 by (unfold reg, rng; cbn [off len]; lia). apply Hon3. exact Hi.
    + apply (ends_bind _ _ _ _ _ 0 0); [|lia]. apply ends_ret; [|lia]. cbv iota.
      eapply ends_mono.
      { eapply (Slow.swp_ends (body A) (S (Z.to_nat (Z.log2 (l - 1 - lo + 1) + 1))) (reg (rng lo (l - 1))) (reg (rng lo (l - 1)))
          (fun r _ w => r = inl (l, hi) /\ forall i, ~ reg (rng lo (l - 1)) i -> w i = mem s3 i) (S (S (Z.to_nat (cSort (l - 1 - lo + 1))))) _ s3 0); [lia|].
        apply swp_call; [lia|]. cbn [lswBody].
        eapply swp_apply; [apply (swp_lswLong (byKey A) (byKey A) HcA cap tn meanI HM HIns HRec lo (l - 1)); lia|lia|lia|auto|auto|].
        cbv beta. intros _ m v' _ Hf Hm. split; [lia|]. apply swp_ret. split; [reflexivity|exact Hf]. }
      { lia. }
      cbv beta. intros r s4 (k & -> & E4). apply Hgo.
      intros i Hi. rewrite E4 by (unfold reg, rng; cbn [off len]; lia). apply Hon3. exact Hi.
  - (* the rest is the shorter part *)
    apply lasts_first. unfold llongBody.
    apply (lasts_bind _ _ _ _ 0 z); [|lia]. eapply ends_mono; [apply Hpiv; [exact HCA|exact Hon]|lia|].
    cbv beta. intros a s2 [-> Hon1]. apply (lasts_bind _ _ _ _ c (z - c)); [|lia].
    eapply ends_mono; [apply Hpart; [exact HCA|exact Hon1]|lia|]. cbv beta. intros a s3 [-> Hon2].
    unfold lswSplit. cbv zeta. destruct (Z.ltb_spec (l - 1 - lo) (hi - l)) as [X|_]; [lia|].
    destruct (Z.ltb_spec (hi - l) maxRec) as [X|_]; [lia|].
    apply (lasts_bind _ _ _ _ 0 (z - c)); [|lia]. apply ends_ret; [|lia]. cbv iota.
    apply lasts_call. apply Hgo'. intros i Hi; apply Hon2; lia.
Qed.

End Against.

Theorem quadratic_lsw pl tn cap n (m0 : Z -> Z) : platOk pl -> tuningOk pl tn -> n <= cap -> 11 * n + 18 < 10 * intSize pl ->
  maxLenRecFC tn + 48 <= n -> NoDup (contents m0 (Slice 0 n)) ->
  exists key : Z -> Z, sortCall pl tn (lswCall pl tn (fun x y => key x <? key y) cap n m0) /\
    forall k st, reach (lswCall pl tn (fun x y => key x <? key y) cap n m0) 1 k st -> returned st tt ->
      (n - maxLenRecFC tn - 48) * (n - maxLenRecFC tn - 48) < 10 * (Z.of_nat k + 1).
Proof.
  intros Hpl Htn Hcap Hb Hn Hnd. assert (Htn' := Htn). destruct Htn' as (T1 & T2 & T3 & T4 & T5).
  assert (HIns : 9 <= maxLenInsFC tn) by lia. assert (HRec : 2 * maxLenInsFC tn < maxLenRecFC tn) by lia.
  rewrite (intSize_eq pl) in Hb. set (B := maxLenRecFC tn + 48).
  assert (Hall : free (fun _ => false) m0 0 (n - 1) = seg m0 0 n).
  { unfold free. replace (n - 1 + 1) with n by lia. generalize (seg m0 0 n). intro L.
    induction L as [|x L IH]; [reflexivity|]. cbn [filter]. cbn [negb]. f_equal. exact IH. }
  assert (Efr : Z.of_nat (length (free (fun _ => false) m0 0 (n - 1))) = n) by (rewrite Hall, seg_length; lia).
  destruct (slow_lsw (Wd := pword pl) cap tn (mI pl) (meanEven_of pl Hpl) HIns HRec B ltac:(unfold B; lia) ltac:(unfold B; lia)
    n 0 (n - 1) m0 (fun _ => false) (fun _ => 0) 0) as (A & _ & _ & Hrun).
  { lia. } { lia. } { lia. } { lia. }
  { replace (n - 1 + 1) with n by lia. rewrite contents_seg in Hnd. exact Hnd. }
  { rewrite Efr. unfold B. lia. }
  { discriminate. }
  rewrite Efr in Hrun. exists A.
  assert (Hwo := byKey_weak A). assert (HcA := consistent_self _ Hwo).
  split; [apply call_lsw; [exact Hwo|lia|rewrite (intSize_eq pl); exact Hb]|].
  intros k st (mg & Hmg & Hx) Hr. set (X := n - maxLenRecFC tn - 48).
  assert (Hd := Z.div_mod (X * X) 10 ltac:(lia)). assert (Hd' := Z.mod_pos_bound (X * X) 10 ltac:(lia)).
  enough (Hk : X * X / 10 <= Z.of_nat k).
  { clear - Hk Hd Hd'. clearbody X. set (Y := X * X) in *. clearbody Y. lia. }
  set (z := X * X / 10) in *. fold (byKey A) in Hx.
  refine (must_returned (lswBody (Wd := pword pl) (byKey A) cap tn (mI pl)) 1 (cellsOf (Slice 0 n))
    (lswSort (Wd := pword pl) (byKey A) cap tn (mI pl) n) (Sh m0 0 mg 0) z k st tt _ Hmg Hx Hr). cbn [mem].
  unfold lswSort. rewrite iw_small by lia. cbv zeta. set (rest := fun single : bool => _).
  assert (Hcells : forall i, reg (rng 0 (n - 1)) i -> cellsOf (Slice 0 n) i).
  { intros i Hi. unfold reg, rng, cellsOf in *. cbn [off len] in *. lia. }
  assert (Hrest : must (lswBody (Wd := pword pl) (byKey A) cap tn (mI pl)) 1 (cellsOf (Slice 0 n)) (rest true) m0 z).
  { unfold rest. destruct (Z.leb_spec (maxLenRecFC tn) (n - 1)) as [L|L]; [|lia].
    set (s0 := Sh m0 0 0 0). change m0 with (mem s0).
    eapply must_lasts with (Q := fun _ _ _ => True); [exact Hcells|exact Hcells| |].
    - apply swp_call with (n := S (S (Z.to_nat (cSort (n - 1 - 0 + 1))))); [lia|]. cbn [lswBody].
      eapply swp_apply; [apply (swp_lswLong (Wd := pword pl) (byKey A) (byKey A) HcA cap tn (mI pl) (meanEven_of pl Hpl) HIns HRec 0 (n - 1)); lia|..]; auto; try lia.
      cbv beta. intros _ m v' _ _ Hm. split; [lia|]. apply swp_ret. exact I.
    - apply lasts_call. apply Hrun; [intros i _; reflexivity|]. replace (n - B) with X by (unfold X, B; lia). lia. }
  destruct (Z.leb_spec (n - 1) (lswConc (Wd := pword pl) tn)) as [L|L].
  - apply (must_view _ _ _ (rest true)); [reflexivity|exact Hrest].
  - eapply must_max; [reflexivity|]. intros mg' Hmg'.
    apply (must_view _ _ _ (rest (mg' <=? 1))); [reflexivity|]. destruct (Z.leb_spec mg' 1); [|lia].
    eapply must_mono; [exact Hrest|lia].
Qed.
