(** * The sequential parts of the typed sorters with comparisons that obey no laws

    With NaNoption = NaNignore the float sorters compare NaNs with < and <=, which is then
    no order.  The lemmas here say what is left of the parts of Typed.v when nothing at
    all is assumed about the comparison operators of the kind: no index leaves its slice,
    the parts end, and they only rearrange the elements. *)

From Coq Require Import List ZArith Lia Bool Permutation.
From Verif Require Import Lang SeqLogic Base Scalar Typed SeqOps ScalarFacts TypedPart TypedPivot.
Import ListNotations.
Open Scope Z_scope.

Local Arguments Z.mul : simpl never.
Local Arguments Z.add : simpl never.
Local Arguments Z.sub : simpl never.
Local Arguments Z.pow : simpl never.

(** ** Insertion sort (X:26-49) *)
Section Ins.
Context {Wd : word}.
Context {P T : Type}.
Variable body : P -> cmd P T unit.
Variable lt : T -> T -> bool.
Notation swp := (swp body).

Lemma any_inner s h val v0 D :
  let o := off s in
  1 <= h < len s ->
  forall l v n,
  1 <= l <= h ->
  permR o (o + len s) v0 (upd v (o + l) val) ->
  (l = h -> v (o + h) = val) ->
  4 * (l + 1) <= Z.of_nat n ->
  swp D n (reg s) (reg s)
    (fun r _ v' =>
       match r with
       | Some l' => 0 <= l' < h /\ permR o (o + len s) v0 (upd v' (o + l') val)
       | None => permR o (o + len s) v0 v'
       end)
    (Loop l (fun l =>
             pre <- sget s (l - 1) ;;
             if lt val pre then
               sset s l pre ;;;
               (if l - 1 =? 0 then done (Some 0) else goto (l - 1))
             else if l =? h then done None else done (Some l))%cmd) v.
Proof.
  intros o Hh l v n Hl Hb Heq Hn.
  apply (swp_loop_var body D 3 (reg s) (reg s)
    (fun l v => 1 <= l <= h /\ permR o (o + len s) v0 (upd v (o + l) val) /\
       (l = h -> v (o + h) = val))
    (fun l => l)); [|repeat split; auto; lia|lia|lia].
  clear l v n Hl Hb Heq Hn.
  intros l v (Hl & Hb & Heq).
  apply swp_bind, swp_sget; [lia|lia|unfold reg, o in *; lia|].
  destruct (lt val (v (off s + (l - 1)))) eqn:E.
  - apply swp_bind, swp_sset; [lia|lia|unfold reg, o in *; lia|].
    fold o. set (w := upd v (o + l) val) in *.
    set (v' := upd v (o + l) (v (o + (l - 1)))).
    assert (Ew : forall i, upd v' (o + (l - 1)) val i = swapv w (o + (l - 1)) (o + l) i).
    { intro i. unfold swapv, w, v', upd.
      destruct (Z.eqb_spec i (o + l)) as [->|]; destruct (Z.eqb_spec (o + l) (o + (l - 1)));
        destruct (Z.eqb_spec (o + (l - 1)) (o + l)); try lia; auto.
      - destruct (Z.eqb_spec i (o + (l - 1))); [|reflexivity]. rewrite Z.eqb_refl. reflexivity. }
    assert (Hb' : permR o (o + len s) v0 (upd v' (o + (l - 1)) val)).
    { eapply permR_trans; [exact Hb|].
      eapply permR_trans; [apply (permR_swap o (o + len s) w (o + (l - 1)) (o + l)); lia|].
      apply permR_ext. intros i _. symmetry. apply Ew. }
    destruct (Z.eqb_spec (l - 1) 0) as [E0|E0]; apply swp_ret.
    + replace (l - 1) with 0 in * by lia. split; [lia|exact Hb'].
    + split; [|lia]. split; [lia|]. split; [exact Hb'|lia].
  - destruct (Z.eqb_spec l h) as [El|El]; apply swp_ret.
    + subst l. eapply permR_trans; [exact Hb|]. apply permR_ext. intros i _.
      unfold upd. destruct (Z.eqb_spec i (o + h)) as [->|]; [symmetry; auto|reflexivity].
    + split; [lia|exact Hb].
Qed.

Lemma swp_insertion_any s v0 D :
  let o := off s in
  0 <= len s ->
  swp D (Z.to_nat (cIns (len s))) (reg s) (reg s)
    (fun _ _ v' => permR o (o + len s) v0 v')
    (insertion lt s) v0.
Proof.
  intros o Hlen. unfold insertion.
  apply (swp_loop_var body D (Z.to_nat (4 * len s + 7)) (reg s) (reg s)
    (fun h v => 1 <= h /\ permR o (o + len s) v0 v)
    (fun h => Z.max 0 (len s - h))
    (fun _ v' => permR o (o + len s) v0 v')).
  2:{ split; [lia|apply permR_refl]. }
  2:{ lia. }
  2:{ unfold cIns. nia. }
  intros h v (Hh & Hb).
  destruct (Z.ltb_spec h (len s)) as [Hl|Hl].
  2:{ apply swp_ret. auto. }
  apply swp_bind, swp_sget; [lia|lia|unfold reg, o in *; lia|]. fold o.
  apply swp_bind. eapply swp_apply.
  { apply (any_inner s h (v (o + h)) v0 D ltac:(lia) h v (Z.to_nat (4 * (h + 1)))).
    - lia.
    - fold o. eapply permR_trans; [exact Hb|]. apply permR_ext. intros i _.
      unfold upd. destruct (Z.eqb_spec i (o + h)) as [->|]; reflexivity.
    - reflexivity.
    - lia. }
  { lia. } { lia. } { auto. } { auto. }
  cbv beta. fold o. intros [l'|] m v' Hp _ Hm.
  - destruct Hp as (Hl' & Hb').
    apply swp_bind, swp_sset; [lia|lia|unfold reg, o in *; lia|].
    apply swp_ret. fold o. split; [|lia]. split; [lia|exact Hb'].
  - apply swp_ret. split; [|lia]. split; [lia|exact Hp].
Qed.
End Ins.

Section Any.
Context {Wd : word}.
Context {T K : Type}.
Variable kd : kind T K.
Variable bodyT : proc K -> cmd (proc K) T unit.
Notation swp := (swp bodyT).

(** ** Pivot selection: reads only *)

Lemma swp_pivot_any s n v D :
  (n = 8 \/ n = 6) -> 2 * n <= len s -> len s < 2 * wq ->
  swp D (Z.to_nat cPivot) (reg s) (fun _ => False)
    (fun pv _ v' => v' = v)
    (pivot kd s (nsamples kd n)) v.
Proof.
  intros Hn Hl Hb. unfold pivot.
  set (m := nsamples kd n).
  assert (Hm : m = n /\ even kd = true \/ m = n - 1 /\ even kd = false).
  { unfold m, nsamples. destruct (even kd); auto. }
  assert (Hm5 : 5 <= m <= 8) by lia.
  rewrite uw_small by lia.
  destruct (minMaxSample_ok (Wd := Wd) (len s) m ltac:(lia) ltac:(lia) ltac:(lia)) as (first & step & E & Hf & Hst & Hlast).
  rewrite E. apply swp_bind.
  eapply swp_apply; [apply (swp_samples kd bodyT s m first step v D); lia|lia|unfold cPivot; lia|auto|auto|].
  cbv beta. intros smp n1 v1 [-> ->] _ Hn1.
  set (vl := fun j => key kd (v (off s + (first + (m - 1 - j) * step)))).
  eapply (swp_local bodyT (fun _ => Panic) D n1 (Z.to_nat (cIns m)) m _ _
    (fun vl' => True) _ _ _ vl v (fun _ => eq_refl)).
  { eapply swp_use; [apply (swp_insertion_any (fun _ => Panic) (ltb kd)) with (s := Slice 0 m) (v0 := vl) (D := O)|..].
    - simpl. lia.
    - lia.
    - simpl. lia.
    - unfold reg; simpl. intros; lia.
    - unfold reg; simpl. intros; lia.
    - auto. }
  { unfold cPivot, cIns in *. nia. }
  intros vl' k Hk _.
  rewrite shiftr1. destruct Hm as [[Em Ee]|[Em Ee]]; rewrite Ee.
  - assert (Hd : m / 2 = 4 \/ m / 2 = 3) by (destruct Hn; subst n; rewrite Em; [left|right]; reflexivity).
    assert (m / 2 < m) by (apply Z.div_lt; lia).
    rewrite !lget_seg by lia. apply swp_ret. reflexivity.
  - assert (Hd : m / 2 = 3 \/ m / 2 = 2) by (destruct Hn; subst n; rewrite Em; [left|right]; reflexivity).
    rewrite !lget_seg by lia. apply swp_ret. reflexivity.
Qed.

Lemma swp_pivotShort_any s v D :
  9 <= len s -> len s < 2 * wq ->
  swp D 4 (reg s) (fun _ => False) (fun pv _ v' => v' = v) (pivotShort kd s) v.
Proof.
  intros Hl Hb. unfold pivotShort. destruct (even kd) eqn:Ee.
  - destruct (minMaxFour (u32 (len s))) as [first step] eqn:E.
    destruct (minMaxFour_ok (len s) first step Hl E) as (HA & HB & HC & HD).
    apply swp_bind, swp_sget; [lia|lia|unfold reg; lia|].
    apply swp_bind, swp_sget; [lia|lia|unfold reg; lia|].
    apply swp_bind, swp_sget; [lia|lia|unfold reg; lia|].
    apply swp_bind, swp_sget; [lia|lia|unfold reg; lia|]. cbv zeta.
    repeat match goal with |- context [if ?b then _ else _] => destruct b end;
      apply swp_ret; reflexivity.
  - rewrite (uw_small (len s)) by lia.
    destruct (minMaxSample_ok (Wd := Wd) (len s) 3 ltac:(lia) ltac:(lia) ltac:(lia)) as (first & step & E & Hf & Hst & Hlast).
    rewrite E. rewrite (uw_small (first + step)) by lia.
    apply swp_bind, swp_sget; [lia|lia|unfold reg; lia|].
    apply swp_bind, swp_sget; [lia|lia|unfold reg; lia|].
    apply swp_bind, swp_sget; [lia|lia|unfold reg; lia|]. cbv zeta.
    repeat match goal with |- context [if ?b then _ else _] => destruct b end;
      apply swp_ret; reflexivity.
Qed.

(** ** Partitioning: the answer is a split point, the elements are rearranged *)
Section Piv.
Variable pv : K.

Definition anyOne (s : slice) (v0 : Z -> T) (k : Z) (v : Z -> T) : Prop :=
  0 <= k <= len s /\ permR (off s) (off s + len s) v0 v.

Lemma swp_partOne_any s v0 D :
  0 <= len s ->
  swp D (Z.to_nat (cPart (len s))) (reg s) (reg s) (fun k _ v' => anyOne s v0 k v')
    (partOne kd s pv) v0.
Proof.
  intro Hlen. unfold partOne.
  apply (swp_loop_var bodyT D 8 (reg s) (reg s)
    (fun st v => permR (off s) (off s + len s) v0 v /\
       match st with
       | LStart l h => 0 <= l /\ h <= len s - 1 /\ l - 1 <= h
       | LLast l h => 0 <= l /\ h <= len s - 1 /\ l - 1 <= h <= l
       | LSecond l h | LSwap l h | LNext l h | LScan l h => 0 <= l < h /\ h <= len s - 1
       end) oneMu (anyOne s v0)).
  2:{ split; [apply permR_refl|lia]. }
  2:{ cbn [oneMu]. lia. }
  2:{ cbn [oneMu]. unfold cPart. lia. }
  assert (Rin : forall i, 0 <= i < len s -> reg s (off s + i)) by (intros; unfold reg; lia).
  intros st v (Hp & Hst). destruct st as [l h|l h|l h|l h|l h|l h]; cbv zeta.
  - destruct (Z.leb_spec (h - 1) l) as [C|C].
    + apply swp_ret. split; [lia|exact Hp].
    + apply swp_bind, swp_sget; [lia|lia|apply Rin; lia|].
      destruct (leb kd _ pv); apply swp_ret; (split; [|cbn [oneMu]; lia]);
        (split; [exact Hp|lia]).
  - apply swp_bind, swp_sswap; [lia|lia|lia|apply Rin; lia..|].
    apply swp_ret. split; [|cbn [oneMu]; lia]. split; [|lia].
    eapply permR_trans; [exact Hp|]. apply permR_swap; lia.
  - apply swp_ret. split; [|cbn [oneMu]; lia]. split; [exact Hp|lia].
  - destruct (Z.leb_spec h l) as [C|C].
    { apply swp_ret. split; [|cbn [oneMu]; lia]. split; [exact Hp|lia]. }
    apply swp_bind, swp_sget; [lia|lia|apply Rin; lia|].
    destruct (leb kd pv _).
    + apply swp_bind, swp_sget; [lia|lia|apply Rin; lia|].
      destruct (ltb kd pv _); apply swp_ret; (split; [|cbn [oneMu]; lia]); (split; [exact Hp|lia]).
    + apply swp_ret. split; [|cbn [oneMu]; lia]. split; [exact Hp|lia].
  - apply swp_bind, swp_sget; [lia|lia|apply Rin; lia|].
    destruct (leb kd pv _).
    + apply swp_ret. split; [|cbn [oneMu]; lia]. split; [exact Hp|lia].
    + destruct (Z.leb_spec h (l + 1)) as [C|C]; apply swp_ret.
      * split; [lia|exact Hp].
      * split; [|cbn [oneMu]; lia]. split; [exact Hp|lia].
  - destruct (Z.eqb_spec l h) as [C|C].
    + apply swp_bind, swp_sget; [lia|lia|apply Rin; lia|].
      destruct (ltb kd _ pv); apply swp_ret; (split; [lia|exact Hp]).
    + apply swp_ret. split; [lia|exact Hp].
Qed.

Definition anyTwo (s : slice) (l0 h0 : Z) (v0 : Z -> T) (r : Z) (v : Z -> T) : Prop :=
  permL (cellsTwo s l0 h0) v0 v /\ (0 <= r <= l0 \/ h0 <= r <= len s).

Lemma swp_partTwo_any s l0 h0 v0 D :
  -1 <= l0 -> l0 < h0 -> h0 <= len s -> 0 <= h0 ->
  swp D (Z.to_nat (cPart2 (len s))) (regTwo s l0 h0) (regTwo s l0 h0)
    (fun r _ v' => anyTwo s l0 h0 v0 r v')
    (partTwo kd s (l0 + 1) h0 pv) v0.
Proof.
  intros Hl0 Hlh Hh0 Hh0'. unfold partTwo. replace (l0 + 1 - 1) with l0 by lia. cbv zeta.
  destruct (Z.leb_spec h0 l0) as [C|_]; [lia|].
  apply (swp_loop_var bodyT D 8 (regTwo s l0 h0) (regTwo s l0 h0)
    (fun st v => permL (cellsTwo s l0 h0) v0 v /\
       match st with
       | LStart l h => -1 <= l <= l0 /\ h0 <= h <= len s
       | LSecond l h | LSwap l h | LNext l h | LScan l h => 0 <= l <= l0 /\ h0 <= h < len s
       | LLast _ _ => False
       end) (twoMu s) (anyTwo s l0 h0 v0)).
  2:{ split; [apply permL_refl|lia]. }
  2:{ cbn [twoMu]. lia. }
  2:{ cbn [twoMu]. unfold cPart2. lia. }
  assert (RL : forall i, 0 <= i <= l0 -> regTwo s l0 h0 (off s + i)) by (intros; unfold regTwo; lia).
  assert (RH : forall i, h0 <= i < len s -> regTwo s l0 h0 (off s + i)) by (intros; unfold regTwo; lia).
  intros st v (Hp & Hst). destruct st as [l h|l h|l h|l h|l h|l h]; cbv zeta.
  - destruct (Z.leb_spec (len s) (h + 1)) as [C|C].
    + apply swp_ret. split; [exact Hp|lia].
    + apply swp_bind, swp_sget; [lia|lia|apply RH; lia|].
      destruct (leb kd _ pv); apply swp_ret; (split; [|cbn [twoMu]; lia]);
        (split; [exact Hp|lia]).
  - apply swp_bind, swp_sswap; [lia|lia|lia|first [apply RL; lia|apply RH; lia]..|].
    apply swp_ret. split; [|cbn [twoMu]; lia]. split; [|lia].
    eapply permL_trans; [exact Hp|]. apply permL_swap;
      [apply cellsTwo_NoDup; assumption|apply cellsTwo_In, RL; lia|apply cellsTwo_In, RH; lia].
  - apply swp_ret. split; [|cbn [twoMu]; lia]. split; [exact Hp|lia].
  - destruct (Z.ltb_spec l 0) as [C|C].
    { apply swp_ret. split; [exact Hp|lia]. }
    destruct (Z.leb_spec (len s) h) as [C'|C'].
    { apply swp_ret. split; [exact Hp|lia]. }
    apply swp_bind, swp_sget; [lia|lia|apply RH; lia|].
    destruct (leb kd pv _).
    + apply swp_bind, swp_sget; [lia|lia|apply RL; lia|].
      destruct (ltb kd pv _); apply swp_ret; (split; [|cbn [twoMu]; lia]); (split; [exact Hp|lia]).
    + apply swp_ret. split; [|cbn [twoMu]; lia]. split; [exact Hp|lia].
  - apply swp_bind, swp_sget; [lia|lia|apply RL; lia|].
    destruct (leb kd pv _).
    + apply swp_ret. split; [|cbn [twoMu]; lia]. split; [exact Hp|lia].
    + destruct (Z.ltb_spec (l - 1) 0) as [C|C]; apply swp_ret.
      * split; [exact Hp|lia].
      * split; [|cbn [twoMu]; lia]. split; [exact Hp|lia].
  - contradiction.
Qed.

Lemma swp_gapLow_any s v0 r0 k0 D :
  -1 <= r0 -> r0 < k0 -> k0 <= len s ->
  swp D (Z.to_nat (cGap (len s))) (reg s) (reg s)
    (fun k _ v => anyOne s v0 k v) (gapLow kd s pv r0 k0) v0.
Proof.
  intros Hr0 Hk0 Hk0'. unfold gapLow.
  apply (swp_loop_var bodyT D 5 (reg s) (reg s)
    (fun '(r, k) v => permR (off s) (off s + len s) v0 v /\ -1 <= r <= r0 /\ r < k <= k0)
    (fun '(r, k) => r + 1) (anyOne s v0)).
  2:{ split; [apply permR_refl|lia]. }
  2:{ lia. }
  2:{ unfold cGap. lia. }
  assert (Rin : forall i, 0 <= i < len s -> reg s (off s + i)) by (intros; unfold reg; lia).
  intros [r k] v (Hp & Hr & Hk).
  destruct (Z.leb_spec 0 r) as [C|C].
  2:{ apply swp_ret. split; [lia|exact Hp]. }
  apply swp_bind, swp_sget; [lia|lia|apply Rin; lia|].
  destruct (ltb kd pv _).
  - cbv zeta. apply swp_bind, swp_sswap; [lia|lia|lia|apply Rin; lia..|].
    apply swp_ret. split; [|lia]. split; [|lia].
    eapply permR_trans; [exact Hp|]. apply permR_swap; lia.
  - apply swp_ret. split; [|lia]. split; [exact Hp|lia].
Qed.

Lemma swp_gapHigh_any s v0 r0 k0 D :
  0 <= k0 -> k0 <= r0 -> r0 <= len s ->
  swp D (Z.to_nat (cGap (len s))) (reg s) (reg s)
    (fun k _ v => anyOne s v0 k v) (gapHigh kd s pv r0 k0) v0.
Proof.
  intros Hk0 Hr0 Hr0'. unfold gapHigh.
  apply (swp_loop_var bodyT D 5 (reg s) (reg s)
    (fun '(r, k) v => permR (off s) (off s + len s) v0 v /\ r0 <= r <= len s /\ 0 <= k <= r)
    (fun '(r, k) => len s - r) (anyOne s v0)).
  2:{ split; [apply permR_refl|lia]. }
  2:{ lia. }
  2:{ unfold cGap. lia. }
  assert (Rin : forall i, 0 <= i < len s -> reg s (off s + i)) by (intros; unfold reg; lia).
  intros [r k] v (Hp & Hr & Hk).
  destruct (Z.ltb_spec r (len s)) as [C|C].
  2:{ apply swp_ret. split; [lia|exact Hp]. }
  apply swp_bind, swp_sget; [lia|lia|apply Rin; lia|].
  destruct (ltb kd _ pv).
  - apply swp_bind, swp_sswap; [lia|lia|lia|apply Rin; lia..|].
    apply swp_ret. split; [|lia]. split; [|lia].
    eapply permR_trans; [exact Hp|]. apply permR_swap; lia.
  - apply swp_ret. split; [|lia]. split; [exact Hp|lia].
Qed.

End Piv.
End Any.
