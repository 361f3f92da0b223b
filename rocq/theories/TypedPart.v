(** * Correctness of the typed partitioning functions *)

From Coq Require Import List ZArith Lia Bool Permutation.
From Verif Require Import Lang SeqLogic Base Scalar Typed SeqOps.
Import ListNotations.
Open Scope Z_scope.

Local Arguments Z.mul : simpl never.
Local Arguments Z.add : simpl never.
Local Arguments Z.sub : simpl never.

(** What a [kind] must satisfy on the keys [ok] for sorting to work. *)
Record laws {T K} (kd : kind T K) (ok : K -> Prop) : Prop := Laws {
  law_le : forall x y, ok x -> ok y -> leb kd x y = negb (ltb kd y x);
  law_asym : forall x y, ok x -> ok y -> ltb kd x y = true -> ltb kd y x = false;
  law_trans : forall x y z, ok x -> ok y -> ok z ->
    leb kd x y = true -> leb kd y z = true -> leb kd x z = true;
  law_mean : even kd = true -> forall x y, ok x -> ok y ->
    ok (mean kd x y) /\
    (leb kd x (mean kd x y) = true /\ leb kd (mean kd x y) y = true \/
     leb kd y (mean kd x y) = true /\ leb kd (mean kd x y) x = true)
}.

Section Part.
Context {T K : Type}.
Variable kd : kind T K.
Variable bodyT : proc K -> cmd (proc K) T unit.
Variable ok : K -> Prop.
Hypothesis LW : laws kd ok.
Notation swp := (swp bodyT).

Section Piv.
Variable pv : K.
Hypothesis okpv : ok pv.

Definition Lo (x : T) : Prop := leb kd (key kd x) pv = true.
Definition Hi (x : T) : Prop := leb kd pv (key kd x) = true.
Definition sLo (x : T) : Prop := ltb kd (key kd x) pv = true.
Definition sHi (x : T) : Prop := ltb kd pv (key kd x) = true.
Let okT (x : T) : Prop := ok (key kd x).

Lemma nHi_sLo x : okT x -> leb kd pv (key kd x) = false -> sLo x.
Proof. intros Hx H. rewrite (law_le _ _ LW) in H by assumption. unfold sLo. destruct (ltb kd (key kd x) pv); auto. Qed.
Lemma nLo_sHi x : okT x -> leb kd (key kd x) pv = false -> sHi x.
Proof. intros Hx H. rewrite (law_le _ _ LW) in H by assumption. unfold sHi. destruct (ltb kd pv (key kd x)); auto. Qed.
Lemma nsHi_Lo x : okT x -> ltb kd pv (key kd x) = false -> Lo x.
Proof. intros Hx H. unfold Lo. rewrite (law_le _ _ LW) by assumption. rewrite H. reflexivity. Qed.
Lemma nsLo_Hi x : okT x -> ltb kd (key kd x) pv = false -> Hi x.
Proof. intros Hx H. unfold Hi. rewrite (law_le _ _ LW) by assumption. rewrite H. reflexivity. Qed.
Lemma sLo_Lo x : okT x -> sLo x -> Lo x.
Proof. intros Hx H. apply nsHi_Lo; auto. apply (law_asym _ _ LW); auto. Qed.
Lemma sHi_Hi x : okT x -> sHi x -> Hi x.
Proof. intros Hx H. apply nsLo_Hi; auto. apply (law_asym _ _ LW); auto. Qed.
Lemma sLo_nHi x : okT x -> sLo x -> Hi x -> False.
Proof. unfold sLo, Hi. intros Hx H1 H2. rewrite (law_le _ _ LW), H1 in H2 by assumption. discriminate. Qed.
Lemma sHi_nLo x : okT x -> sHi x -> Lo x -> False.
Proof. unfold sHi, Lo. intros Hx H1 H2. rewrite (law_le _ _ LW), H1 in H2 by assumption. discriminate. Qed.

Section One.
Variable s : slice.
Let o := off s.
Hypothesis Hlen : 0 <= len s.

Definition onePost (v0 : Z -> T) (k : Z) (v : Z -> T) : Prop :=
  0 <= k <= len s /\ permR o (o + len s) v0 v /\
  (forall i, 0 <= i < k -> Lo (v (o + i))) /\
  (forall i, k <= i < len s -> Hi (v (o + i))) /\
  (k = 0 -> (forall i, 0 <= i < len s -> v (o + i) = v0 (o + i)) /\
            forall i, 0 <= i < len s - 1 -> sHi (v (o + i))) /\
  (k = len s -> (forall i, 0 <= i < len s -> v (o + i) = v0 (o + i)) /\
            forall i, 0 <= i < len s -> sLo (v (o + i))).

Definition oneInv (v0 : Z -> T) (st : label) (v : Z -> T) : Prop :=
  (forall i, 0 <= i < len s -> okT (v (o + i))) /\ permR o (o + len s) v0 v /\
  match st with
  | LStart l h | LLast l h =>
      (forall i, 0 <= i < l -> Lo (v (o + i))) /\
      (forall i, h < i < len s -> Hi (v (o + i))) /\ l - 1 <= h /\
      ((l = 0 /\ h = len s - 1 /\ v = v0) \/ (1 <= l /\ h <= len s - 2)) /\
      match st with LLast _ _ => h <= l | _ => True end
  | LSecond l h => 0 <= l < h /\ h <= len s - 1 /\
      (forall i, 0 <= i < l -> Lo (v (o + i))) /\
      (forall i, h <= i < len s -> Hi (v (o + i))) /\ sHi (v (o + l)) /\
      (l = 0 -> v = v0 /\ forall i, h <= i < len s - 1 -> sHi (v (o + i)))
  | LSwap l h => 0 <= l < h /\ h <= len s - 1 /\
      (forall i, 0 <= i < l -> Lo (v (o + i))) /\
      (forall i, h < i < len s -> Hi (v (o + i))) /\ Hi (v (o + l)) /\ Lo (v (o + h))
  | LNext l h => 0 <= l < h /\ h <= len s - 1 /\
      (forall i, 0 <= i <= l -> Lo (v (o + i))) /\
      (forall i, h <= i < len s -> Hi (v (o + i)))
  | LScan l h => 0 <= l < h /\ h <= len s - 1 /\
      (forall i, 0 <= i < l -> Lo (v (o + i))) /\
      (forall i, h < i < len s -> Hi (v (o + i))) /\ sLo (v (o + h)) /\
      (h = len s - 1 -> v = v0 /\ forall i, 0 <= i < l -> sLo (v (o + i)))
  end.

Definition oneMu (st : label) : Z :=
  match st with
  | LStart l h => 4 * (h - l + 2) + 4
  | LSecond l h | LScan l h => 4 * (h - l + 2) + 3
  | LSwap l h => 4 * (h - l + 2) + 2
  | LNext l h => 4 * (h - l + 2) + 1
  | LLast l h => 4 * (h - l + 2)
  end.

Definition cPart (n : Z) : Z := 36 * n + 81.

Lemma swp_partOne v0 D :
  (forall i, 0 <= i < len s -> okT (v0 (o + i))) ->
  swp D (Z.to_nat (cPart (len s))) (reg s) (reg s) (fun k _ v' => onePost v0 k v')
    (partOne kd s pv) v0.
Proof.
  intro Hok0. unfold partOne.
  apply (swp_loop_var bodyT D 8 (reg s) (reg s) (oneInv v0) oneMu (onePost v0)).
  2:{ split; [exact Hok0|]. split; [apply permR_refl|].
      split; [intros; lia|]. split; [intros; lia|]. split; [lia|].
      split; [left; auto|exact I]. }
  2:{ cbn [oneMu]. lia. }
  2:{ cbn [oneMu]. unfold cPart. lia. }
  assert (Rin : forall i, 0 <= i < len s -> reg s (off s + i)) by (intros; unfold reg; lia).
  intros st v (Hok & Hp & Hst). destruct st as [l h|l h|l h|l h|l h|l h].
  - (* second *)
    destruct Hst as (Hl & Hh & HL & HH & Hs & H0). cbv zeta.
    destruct (Z.leb_spec (h - 1) l) as [C|C].
    + apply swp_ret. split; [lia|]. split; [exact Hp|]. split; [exact HL|].
      split; [|split].
      * intros i Hi. destruct (Z.eq_dec i l) as [->|]; [apply sHi_Hi; [apply Hok; lia|exact Hs]|].
        apply HH; lia.
      * intros ->. destruct (H0 eq_refl) as [-> Hst]. split; [reflexivity|].
        intros i Hi. destruct (Z.eq_dec i 0) as [->|]; [exact Hs|apply Hst; lia].
      * intros ->. lia.
    + apply swp_bind, swp_sget; [lia|lia|apply Rin; lia|]. fold o.
      destruct (leb kd (key kd (v (o + (h - 1)))) pv) eqn:E; apply swp_ret.
      * split; [|cbn [oneMu]; lia]. split; [exact Hok|]. split; [exact Hp|].
        split; [lia|]. split; [lia|]. split; [exact HL|].
        split; [intros; apply HH; lia|]. split; [apply sHi_Hi; [apply Hok; lia|exact Hs]|exact E].
      * split; [|cbn [oneMu]; lia]. split; [exact Hok|]. split; [exact Hp|].
        assert (Hsh : sHi (v (o + (h - 1)))) by (apply nLo_sHi; [apply Hok; lia|exact E]).
        split; [lia|]. split; [lia|]. split; [exact HL|]. split; [|split; [exact Hs|]].
        -- intros i Hi. destruct (Z.eq_dec i (h - 1)) as [->|]; [|apply HH; lia].
           apply sHi_Hi; [apply Hok; lia|exact Hsh].
        -- intros ->. destruct (H0 eq_refl) as [-> Hst]. split; [reflexivity|].
           intros i Hi. destruct (Z.eq_dec i (h - 1)) as [->|]; [exact Hsh|apply Hst; lia].
  - (* swap *)
    destruct Hst as (Hl & Hh & HL & HH & H1 & H2).
    apply swp_bind, swp_sswap; [lia|lia|lia|apply Rin; lia..|]. fold o.
    apply swp_ret. split; [|cbn [oneMu]; lia].
    split; [|split; [|split; [lia|split; [lia|split]]]].
    + intros i Hi. destruct (Z.eq_dec i l) as [->|]; [rewrite swapv_l; apply Hok; lia|].
      destruct (Z.eq_dec i h) as [->|]; [rewrite swapv_r; apply Hok; lia|].
      rewrite swapv_o by lia. apply Hok; lia.
    + eapply permR_trans; [exact Hp|]. apply permR_swap; lia.
    + intros i Hi. destruct (Z.eq_dec i l) as [->|]; [rewrite swapv_l; exact H2|].
      rewrite swapv_o by lia. apply HL; lia.
    + intros i Hi. destruct (Z.eq_dec i h) as [->|]; [rewrite swapv_r; exact H1|].
      rewrite swapv_o by lia. apply HH; lia.
  - (* next *)
    destruct Hst as (Hl & Hh & HL & HH). apply swp_ret. split; [|cbn [oneMu]; lia].
    split; [exact Hok|]. split; [exact Hp|].
    split; [intros; apply HL; lia|]. split; [intros; apply HH; lia|].
    split; [lia|]. split; [right; lia|exact I].
  - (* start *)
    destruct Hst as (HL & HH & Hlh & Hx & _).
    destruct (Z.leb_spec h l) as [C|C].
    { apply swp_ret. split; [|cbn [oneMu]; lia]. split; [exact Hok|]. split; [exact Hp|].
      repeat split; auto. }
    assert (Hb : 0 <= l /\ h <= len s - 1) by lia.
    apply swp_bind, swp_sget; [lia|lia|apply Rin; lia|]. fold o.
    destruct (leb kd pv (key kd (v (o + h)))) eqn:E.
    + apply swp_bind, swp_sget; [lia|lia|apply Rin; lia|]. fold o.
      destruct (ltb kd pv (key kd (v (o + l)))) eqn:E2; apply swp_ret.
      * split; [|cbn [oneMu]; lia]. split; [exact Hok|]. split; [exact Hp|].
        split; [lia|]. split; [lia|]. split; [exact HL|]. split; [|split; [exact E2|]].
        -- intros i Hi. destruct (Z.eq_dec i h) as [->|]; [exact E|apply HH; lia].
        -- intros ->. destruct Hx as [(_ & -> & ->)|?]; [|lia]. split; [reflexivity|]. intros; lia.
      * split; [|cbn [oneMu]; lia]. split; [exact Hok|]. split; [exact Hp|].
        split; [lia|]. split; [lia|]. split.
        -- intros i Hi. destruct (Z.eq_dec i l) as [->|]; [|apply HL; lia].
           apply nsHi_Lo; [apply Hok; lia|exact E2].
        -- intros i Hi. destruct (Z.eq_dec i h) as [->|]; [exact E|apply HH; lia].
    + apply swp_ret. split; [|cbn [oneMu]; lia]. split; [exact Hok|]. split; [exact Hp|].
      split; [lia|]. split; [lia|]. split; [exact HL|]. split; [exact HH|].
      split; [apply nHi_sLo; [apply Hok; lia|exact E]|].
      intros ->. destruct Hx as [(-> & _ & ->)|?]; [|lia]. split; [reflexivity|]. intros; lia.
  - (* scan *)
    destruct Hst as (Hl & Hh & HL & HH & Hs & H0).
    apply swp_bind, swp_sget; [lia|lia|apply Rin; lia|]. fold o.
    destruct (leb kd pv (key kd (v (o + l)))) eqn:E.
    + apply swp_ret. split; [|cbn [oneMu]; lia]. split; [exact Hok|]. split; [exact Hp|].
      split; [lia|]. split; [lia|]. split; [exact HL|]. split; [exact HH|].
      split; [exact E|apply sLo_Lo; [apply Hok; lia|exact Hs]].
    + assert (Hsl : sLo (v (o + l))) by (apply nHi_sLo; [apply Hok; lia|exact E]).
      cbv zeta. destruct (Z.leb_spec h (l + 1)) as [C|C]; apply swp_ret.
      * split; [lia|]. split; [exact Hp|]. split; [|split; [|split]].
        -- intros i Hi. destruct (Z.eq_dec i l) as [->|]; [apply sLo_Lo; [apply Hok; lia|exact Hsl]|].
           destruct (Z.eq_dec i h) as [->|]; [apply sLo_Lo; [apply Hok; lia|exact Hs]|].
           apply HL; lia.
        -- intros i Hi. apply HH; lia.
        -- intro; lia.
        -- intro Ek. destruct (H0 ltac:(lia)) as [-> Hst]. split; [reflexivity|].
           intros i Hi. destruct (Z.eq_dec i l) as [->|]; [exact Hsl|].
           destruct (Z.eq_dec i h) as [->|]; [exact Hs|]. apply Hst; lia.
      * split; [|cbn [oneMu]; lia]. split; [exact Hok|]. split; [exact Hp|].
        split; [lia|]. split; [lia|]. split; [|split; [exact HH|split; [exact Hs|]]].
        -- intros i Hi. destruct (Z.eq_dec i l) as [->|]; [apply sLo_Lo; [apply Hok; lia|exact Hsl]|].
           apply HL; lia.
        -- intro Eh. destruct (H0 Eh) as [-> Hst]. split; [reflexivity|].
           intros i Hi. destruct (Z.eq_dec i l) as [->|]; [exact Hsl|]. apply Hst; lia.
  - (* last *)
    destruct Hst as (HL & HH & Hlh & Hx & C).
    destruct (Z.eqb_spec l h) as [E|E].
    + apply swp_bind, swp_sget; [lia|lia|apply Rin; lia|]. fold o.
      destruct (ltb kd (key kd (v (o + h))) pv) eqn:E2; apply swp_ret.
      * split; [lia|]. split; [exact Hp|]. split; [|split; [|split]].
        -- intros i Hi. destruct (Z.eq_dec i h) as [->|]; [|apply HL; lia].
           apply sLo_Lo; [apply Hok; lia|exact E2].
        -- intros i Hi. apply HH; lia.
        -- intro; lia.
        -- intro. destruct Hx as [(-> & Hh & ->)|?]; [|lia]. split; [reflexivity|].
           intros i Hi. replace i with h by lia. exact E2.
      * split; [lia|]. split; [exact Hp|]. split; [exact HL|]. split; [|split].
        -- intros i Hi. destruct (Z.eq_dec i h) as [->|]; [|apply HH; lia].
           apply nsLo_Hi; [apply Hok; lia|exact E2].
        -- intros ->. destruct Hx as [(_ & Hh & ->)|?]; [|lia]. split; [reflexivity|]. intros; lia.
        -- intro. exfalso. lia.
    + apply swp_ret. split; [lia|]. split; [exact Hp|]. split; [exact HL|].
      split; [intros i Hi; apply HH; lia|]. split.
      * intro. assert (len s = 0) by lia. destruct Hx as [(_ & Hh & ->)|?]; [|lia].
        split; [reflexivity|]. intros; lia.
      * intro. assert (len s = 0) by lia. destruct Hx as [(_ & Hh & ->)|?]; [|lia].
        split; [reflexivity|]. intros; lia.
Qed.

End One.
(** ** partTwo *)
Section Two.
Variable s : slice.
Let o := off s.
Variables l0 h0 : Z.     (* last cell of the left range, first cell of the right range *)
Hypothesis Hl0 : -1 <= l0.
Hypothesis Hlh : l0 < h0.
Hypothesis Hh0 : h0 <= len s.
Hypothesis Hh0' : 0 <= h0.

Definition regTwo (i : Z) : Prop := o <= i <= o + l0 \/ o + h0 <= i < o + len s.
Definition cellsTwo : list Z := zrange o (o + l0 + 1) ++ zrange (o + h0) (o + len s).

Lemma cellsTwo_In i : In i cellsTwo <-> regTwo i.
Proof. unfold cellsTwo, regTwo. rewrite in_app_iff, !In_zrange. lia. Qed.

Lemma cellsTwo_NoDup : NoDup cellsTwo.
Proof.
  unfold cellsTwo. generalize (NoDup_zrange o (o + l0 + 1)). generalize (NoDup_zrange (o + h0) (o + len s)).
  intros H2. assert (D : forall x, In x (zrange o (o + l0 + 1)) -> ~ In x (zrange (o + h0) (o + len s))).
  { intros x. rewrite !In_zrange. lia. }
  revert D. induction (zrange o (o + l0 + 1)) as [|x L IH]; intros D H1; simpl; [exact H2|].
  inversion H1; subst. constructor.
  - rewrite in_app_iff. intros [?|Hx]; [contradiction|]. apply (D x); [left; reflexivity|exact Hx].
  - apply IH; [|assumption]. intros y Hy. apply D. right; exact Hy.
Qed.

Definition twoPost (v0 : Z -> T) (r : Z) (v : Z -> T) : Prop :=
  permL cellsTwo v0 v /\
  ((0 <= r <= l0 /\
    (forall i, r < i <= l0 -> Lo (v (o + i))) /\
    (forall i, h0 <= i < len s -> Hi (v (o + i))) /\
    (r = l0 -> v = v0 /\ forall i, h0 < i < len s -> sHi (v (o + i))))
   \/
   (h0 <= r <= len s /\
    (forall i, 0 <= i <= l0 -> Lo (v (o + i))) /\
    (forall i, h0 <= i < r -> Hi (v (o + i))) /\
    (r = h0 -> v = v0 /\ forall i, 0 <= i <= l0 -> sLo (v (o + i))))).

Definition twoInv (v0 : Z -> T) (st : label) (v : Z -> T) : Prop :=
  (forall i, regTwo (o + i) -> okT (v (o + i))) /\ permL cellsTwo v0 v /\
  match st with
  | LStart l h => -1 <= l <= l0 /\ h0 <= h <= len s /\
      (forall i, l < i <= l0 -> Lo (v (o + i))) /\
      (forall i, h0 <= i < h -> Hi (v (o + i))) /\
      ((l = l0 /\ h = h0 /\ v = v0) \/ (l < l0 /\ h0 < h))
  | LSecond l h => 0 <= l <= l0 /\ h0 <= h < len s /\
      (forall i, l < i <= l0 -> Lo (v (o + i))) /\
      (forall i, h0 <= i <= h -> Hi (v (o + i))) /\ sHi (v (o + l)) /\
      (l = l0 -> v = v0 /\ forall i, h0 < i <= h -> sHi (v (o + i)))
  | LSwap l h => 0 <= l <= l0 /\ h0 <= h < len s /\
      (forall i, l < i <= l0 -> Lo (v (o + i))) /\
      (forall i, h0 <= i < h -> Hi (v (o + i))) /\ Hi (v (o + l)) /\ Lo (v (o + h))
  | LNext l h => 0 <= l <= l0 /\ h0 <= h < len s /\
      (forall i, l <= i <= l0 -> Lo (v (o + i))) /\
      (forall i, h0 <= i <= h -> Hi (v (o + i)))
  | LScan l h => 0 <= l <= l0 /\ h0 <= h < len s /\
      (forall i, l < i <= l0 -> Lo (v (o + i))) /\
      (forall i, h0 <= i < h -> Hi (v (o + i))) /\ sLo (v (o + h)) /\
      (h = h0 -> v = v0 /\ forall i, l < i <= l0 -> sLo (v (o + i)))
  | LLast _ _ => False
  end.

Definition twoMu (st : label) : Z :=
  match st with
  | LStart l h => 4 * (l + 1 + len s - h + 2) + 4
  | LSecond l h | LScan l h => 4 * (l + 1 + len s - h + 2) + 3
  | LSwap l h => 4 * (l + 1 + len s - h + 2) + 2
  | LNext l h => 4 * (l + 1 + len s - h + 2) + 1
  | LLast l h => 0
  end.

Definition cPart2 (n : Z) : Z := 36 * n + 117.

Lemma swp_partTwo v0 D :
  (forall i, regTwo (o + i) -> okT (v0 (o + i))) ->
  swp D (Z.to_nat (cPart2 (len s))) regTwo regTwo (fun r _ v' => twoPost v0 r v')
    (partTwo kd s (l0 + 1) h0 pv) v0.
Proof.
  intro Hok0. unfold partTwo. replace (l0 + 1 - 1) with l0 by lia. cbv zeta.
  destruct (Z.leb_spec h0 l0) as [C|_]; [lia|].
  apply (swp_loop_var bodyT D 8 regTwo regTwo (twoInv v0) twoMu (twoPost v0)).
  2:{ split; [exact Hok0|]. split; [apply permL_refl|].
      split; [lia|]. split; [lia|]. split; [intros; lia|]. split; [intros; lia|].
      left; auto. }
  2:{ cbn [twoMu]. lia. }
  2:{ cbn [twoMu]. unfold cPart2. lia. }
  assert (RL : forall i, 0 <= i <= l0 -> regTwo (o + i)) by (intros; unfold regTwo; lia).
  assert (RH : forall i, h0 <= i < len s -> regTwo (o + i)) by (intros; unfold regTwo; lia).
  intros st v (Hok & Hp & Hst). destruct st as [l h|l h|l h|l h|l h|l h].
  - (* second *)
    destruct Hst as (Hl & Hh & HL & HH & Hs & H0). cbv zeta.
    destruct (Z.leb_spec (len s) (h + 1)) as [C|C].
    + apply swp_ret. split; [exact Hp|]. left. split; [lia|]. split; [exact HL|].
      split; [intros; apply HH; lia|]. intro E. destruct (H0 E) as [-> Hst].
      split; [reflexivity|]. intros; apply Hst; lia.
    + apply swp_bind, swp_sget; [lia|lia|apply RH; lia|]. fold o.
      destruct (leb kd (key kd (v (o + (h + 1)))) pv) eqn:E; apply swp_ret.
      * split; [|cbn [twoMu]; lia]. split; [exact Hok|]. split; [exact Hp|].
        split; [lia|]. split; [lia|]. split; [exact HL|].
        split; [intros; apply HH; lia|].
        split; [apply sHi_Hi; [apply Hok, RL; lia|exact Hs]|exact E].
      * split; [|cbn [twoMu]; lia]. split; [exact Hok|]. split; [exact Hp|].
        assert (Hsh : sHi (v (o + (h + 1)))) by (apply nLo_sHi; [apply Hok, RH; lia|exact E]).
        split; [lia|]. split; [lia|]. split; [exact HL|]. split; [|split; [exact Hs|]].
        -- intros i Hi. destruct (Z.eq_dec i (h + 1)) as [->|]; [|apply HH; lia].
           apply sHi_Hi; [apply Hok, RH; lia|exact Hsh].
        -- intro El. destruct (H0 El) as [-> Hst]. split; [reflexivity|].
           intros i Hi. destruct (Z.eq_dec i (h + 1)) as [->|]; [exact Hsh|apply Hst; lia].
  - (* swap *)
    destruct Hst as (Hl & Hh & HL & HH & H1 & H2).
    apply swp_bind, swp_sswap;
      [lia|lia|lia|apply RL; lia|apply RH; lia|apply RL; lia|apply RH; lia|]. fold o.
    apply swp_ret. split; [|cbn [twoMu]; lia].
    split; [|split; [|split; [lia|split; [lia|split]]]].
    + intros i Hi. destruct (Z.eq_dec i l) as [->|]; [rewrite swapv_l; apply Hok, RH; lia|].
      destruct (Z.eq_dec i h) as [->|]; [rewrite swapv_r; apply Hok, RL; lia|].
      rewrite swapv_o by lia. apply Hok; exact Hi.
    + eapply permL_trans; [exact Hp|].
      apply permL_swap; [apply cellsTwo_NoDup|apply cellsTwo_In, RL; lia|apply cellsTwo_In, RH; lia].
    + intros i Hi. destruct (Z.eq_dec i l) as [->|]; [rewrite swapv_l; exact H2|].
      rewrite swapv_o by lia. apply HL; lia.
    + intros i Hi. destruct (Z.eq_dec i h) as [->|]; [rewrite swapv_r; exact H1|].
      rewrite swapv_o by lia. apply HH; lia.
  - (* next *)
    destruct Hst as (Hl & Hh & HL & HH). apply swp_ret. split; [|cbn [twoMu]; lia].
    split; [exact Hok|]. split; [exact Hp|]. split; [lia|]. split; [lia|].
    split; [intros; apply HL; lia|]. split; [intros; apply HH; lia|]. right; lia.
  - (* start *)
    destruct Hst as (Hl & Hh & HL & HH & Hx).
    destruct (Z.ltb_spec l 0) as [C|C].
    { apply swp_ret. split; [exact Hp|]. right. split; [lia|].
      split; [intros; apply HL; lia|]. split; [exact HH|].
      intro E. destruct Hx as [(Hl' & Hh' & ->)|?]; [|lia]. split; [reflexivity|]. intros; lia. }
    destruct (Z.leb_spec (len s) h) as [C2|C2].
    { apply swp_ret. split; [exact Hp|]. left. split; [lia|]. split; [exact HL|].
      split; [intros; apply HH; lia|].
      intro E. destruct Hx as [(Hl' & Hh' & ->)|?]; [|lia]. split; [reflexivity|]. intros; lia. }
    apply swp_bind, swp_sget; [lia|lia|apply RH; lia|]. fold o.
    destruct (leb kd pv (key kd (v (o + h)))) eqn:E.
    + apply swp_bind, swp_sget; [lia|lia|apply RL; lia|]. fold o.
      destruct (ltb kd pv (key kd (v (o + l)))) eqn:E2; apply swp_ret.
      * split; [|cbn [twoMu]; lia]. split; [exact Hok|]. split; [exact Hp|].
        split; [lia|]. split; [lia|]. split; [exact HL|]. split; [|split; [exact E2|]].
        -- intros i Hi. destruct (Z.eq_dec i h) as [->|]; [exact E|apply HH; lia].
        -- intro El. destruct Hx as [(_ & -> & ->)|?]; [|lia]. split; [reflexivity|]. intros; lia.
      * split; [|cbn [twoMu]; lia]. split; [exact Hok|]. split; [exact Hp|].
        split; [lia|]. split; [lia|]. split.
        -- intros i Hi. destruct (Z.eq_dec i l) as [->|]; [|apply HL; lia].
           apply nsHi_Lo; [apply Hok, RL; lia|exact E2].
        -- intros i Hi. destruct (Z.eq_dec i h) as [->|]; [exact E|apply HH; lia].
    + apply swp_ret. split; [|cbn [twoMu]; lia]. split; [exact Hok|]. split; [exact Hp|].
      split; [lia|]. split; [lia|]. split; [exact HL|]. split; [exact HH|].
      split; [apply nHi_sLo; [apply Hok, RH; lia|exact E]|].
      intro El. destruct Hx as [(-> & _ & ->)|?]; [|lia]. split; [reflexivity|]. intros; lia.
  - (* scan *)
    destruct Hst as (Hl & Hh & HL & HH & Hs & H0).
    apply swp_bind, swp_sget; [lia|lia|apply RL; lia|]. fold o.
    destruct (leb kd pv (key kd (v (o + l)))) eqn:E.
    + apply swp_ret. split; [|cbn [twoMu]; lia]. split; [exact Hok|]. split; [exact Hp|].
      split; [lia|]. split; [lia|]. split; [exact HL|]. split; [exact HH|].
      split; [exact E|apply sLo_Lo; [apply Hok, RH; lia|exact Hs]].
    + assert (Hsl : sLo (v (o + l))) by (apply nHi_sLo; [apply Hok, RL; lia|exact E]).
      cbv zeta. destruct (Z.ltb_spec (l - 1) 0) as [C|C]; apply swp_ret.
      * split; [exact Hp|]. right. split; [lia|]. split; [|split; [exact HH|]].
        -- intros i Hi. destruct (Z.eq_dec i l) as [->|]; [apply sLo_Lo; [apply Hok, RL; lia|exact Hsl]|].
           apply HL; lia.
        -- intro Ek. destruct (H0 Ek) as [-> Hst]. split; [reflexivity|].
           intros i Hi. destruct (Z.eq_dec i l) as [->|]; [exact Hsl|]. apply Hst; lia.
      * split; [|cbn [twoMu]; lia]. split; [exact Hok|]. split; [exact Hp|].
        split; [lia|]. split; [lia|]. split; [|split; [exact HH|split; [exact Hs|]]].
        -- intros i Hi. destruct (Z.eq_dec i l) as [->|]; [apply sLo_Lo; [apply Hok, RL; lia|exact Hsl]|].
           apply HL; lia.
        -- intro Eh. destruct (H0 Eh) as [-> Hst]. split; [reflexivity|].
           intros i Hi. destruct (Z.eq_dec i l) as [->|]; [exact Hsl|]. apply Hst; lia.
  - contradiction.
Qed.

End Two.

(** ** Closing the gap *)
Section Gap.
Variable s : slice.
Let o := off s.

Definition cGap (n : Z) : Z := 6 * n + 12.

Lemma swp_gapLow v0 r0 k0 D :
  (forall i, 0 <= i < len s -> okT (v0 (o + i))) ->
  -1 <= r0 -> r0 < k0 -> k0 <= len s ->
  (forall i, r0 < i < k0 -> Lo (v0 (o + i))) ->
  (forall i, k0 <= i < len s -> Hi (v0 (o + i))) ->
  swp D (Z.to_nat (cGap (len s))) (reg s) (reg s)
    (fun k _ v => 0 <= k <= len s /\ permR o (o + len s) v0 v /\
       (forall i, 0 <= i < k -> Lo (v (o + i))) /\
       (forall i, k <= i < len s -> Hi (v (o + i))) /\
       (k = 0 -> k0 = r0 + 1 /\ (forall i, v i = v0 i) /\
                 forall i, 0 <= i <= r0 -> sHi (v (o + i))) /\ k <= k0)
    (gapLow kd s pv r0 k0) v0.
Proof.
  intros Hok0 Hr0 Hk0 Hk0' HL0 HH0. unfold gapLow.
  apply (swp_loop_var bodyT D 5 (reg s) (reg s)
    (fun '(r, k) v =>
       (forall i, 0 <= i < len s -> okT (v (o + i))) /\ permR o (o + len s) v0 v /\
       -1 <= r <= r0 /\ r < k <= k0 /\ k0 - (r0 + 1) <= k - (r + 1) /\
       (forall i, r < i < k -> Lo (v (o + i))) /\
       (forall i, k <= i < len s -> Hi (v (o + i))) /\
       (k = r + 1 -> (forall i, v i = v0 i) /\ forall i, r < i <= r0 -> sHi (v (o + i))))
    (fun '(r, k) => r + 1)
    (fun k v => 0 <= k <= len s /\ permR o (o + len s) v0 v /\
       (forall i, 0 <= i < k -> Lo (v (o + i))) /\
       (forall i, k <= i < len s -> Hi (v (o + i))) /\
       (k = 0 -> k0 = r0 + 1 /\ (forall i, v i = v0 i) /\
                 forall i, 0 <= i <= r0 -> sHi (v (o + i))) /\ k <= k0)).
  2:{ split; [exact Hok0|]. split; [apply permR_refl|].
      repeat split; try lia; auto. }
  2:{ lia. }
  2:{ unfold cGap. lia. }
  assert (Rin : forall i, 0 <= i < len s -> reg s (off s + i)) by (intros; unfold reg; lia).
  intros [r k] v (Hok & Hp & Hr & Hk & Hsz & HL & HH & Hx).
  destruct (Z.leb_spec 0 r) as [C|C].
  2:{ apply swp_ret. repeat split; try lia; auto.
      - intros i Hi. apply HL; lia.
      - apply Hx; lia.
      - intros i Hi. apply Hx; lia. }
  apply swp_bind, swp_sget; [lia|lia|apply Rin; lia|]. fold o.
  destruct (ltb kd pv (key kd (v (o + r)))) eqn:E.
  - cbv zeta. apply swp_bind, swp_sswap; [lia|lia|lia|apply Rin; lia..|]. fold o.
    apply swp_ret. split; [|lia].
    split; [|split; [|repeat (split; [lia|])]].
    + intros i Hi. destruct (Z.eq_dec i r) as [->|]; [rewrite swapv_l; apply Hok; lia|].
      destruct (Z.eq_dec i (k - 1)) as [->|]; [rewrite swapv_r; apply Hok; lia|].
      rewrite swapv_o by lia. apply Hok; lia.
    + eapply permR_trans; [exact Hp|]. apply permR_swap; lia.
    + split; [|split].
      * intros i Hi. destruct (Z.eq_dec i r) as [->|].
        { rewrite swapv_l. apply HL; lia. }
        rewrite swapv_o by lia. apply HL; lia.
      * intros i Hi. destruct (Z.eq_dec i (k - 1)) as [->|].
        { rewrite swapv_r. apply sHi_Hi; [apply Hok; lia|exact E]. }
        rewrite swapv_o by lia. apply HH; lia.
      * intro Ek. assert (Ekr : k = r + 1) by lia. destruct (Hx Ekr) as [Hv Hs].
        replace (k - 1) with r by lia. split.
        { intro i. rewrite swapv_same. apply Hv. }
        intros i Hi. rewrite swapv_same. destruct (Z.eq_dec i r) as [->|]; [exact E|apply Hs; lia].
  - apply swp_ret. split; [|lia].
    split; [exact Hok|]. split; [exact Hp|]. repeat (split; [lia|]). split; [|split; [exact HH|]].
    + intros i Hi. destruct (Z.eq_dec i r) as [->|]; [|apply HL; lia].
      apply nsHi_Lo; [apply Hok; lia|exact E].
    + intro; lia.
Qed.

Lemma swp_gapHigh v0 r0 k0 D :
  (forall i, 0 <= i < len s -> okT (v0 (o + i))) ->
  0 <= k0 -> k0 <= r0 -> r0 <= len s ->
  (forall i, 0 <= i < k0 -> Lo (v0 (o + i))) ->
  (forall i, k0 <= i < r0 -> Hi (v0 (o + i))) ->
  swp D (Z.to_nat (cGap (len s))) (reg s) (reg s)
    (fun k _ v => k0 <= k <= len s /\ permR o (o + len s) v0 v /\
       (forall i, 0 <= i < k -> Lo (v (o + i))) /\
       (forall i, k <= i < len s -> Hi (v (o + i))) /\
       (k = len s -> k0 = r0 /\ (forall i, v i = v0 i) /\
                 forall i, r0 <= i < len s -> sLo (v (o + i))))
    (gapHigh kd s pv r0 k0) v0.
Proof.
  intros Hok0 Hk0 Hr0 Hr0' HL0 HH0. unfold gapHigh.
  apply (swp_loop_var bodyT D 5 (reg s) (reg s)
    (fun '(r, k) v =>
       (forall i, 0 <= i < len s -> okT (v (o + i))) /\ permR o (o + len s) v0 v /\
       r0 <= r <= len s /\ k0 <= k <= r /\ r0 - k0 <= r - k /\
       (forall i, 0 <= i < k -> Lo (v (o + i))) /\
       (forall i, k <= i < r -> Hi (v (o + i))) /\
       (k = r -> (forall i, v i = v0 i) /\ forall i, r0 <= i < r -> sLo (v (o + i))))
    (fun '(r, k) => len s - r)
    (fun k v => k0 <= k <= len s /\ permR o (o + len s) v0 v /\
       (forall i, 0 <= i < k -> Lo (v (o + i))) /\
       (forall i, k <= i < len s -> Hi (v (o + i))) /\
       (k = len s -> k0 = r0 /\ (forall i, v i = v0 i) /\
                 forall i, r0 <= i < len s -> sLo (v (o + i))))).
  2:{ split; [exact Hok0|]. split; [apply permR_refl|].
      repeat split; try lia; auto. }
  2:{ lia. }
  2:{ unfold cGap. lia. }
  assert (Rin : forall i, 0 <= i < len s -> reg s (off s + i)) by (intros; unfold reg; lia).
  intros [r k] v (Hok & Hp & Hr & Hk & Hsz & HL & HH & Hx).
  destruct (Z.ltb_spec r (len s)) as [C|C].
  2:{ apply swp_ret. repeat split; try lia; auto.
      - intros i Hi. apply HH; lia.
      - apply Hx; lia.
      - intros i Hi. apply Hx; lia. }
  apply swp_bind, swp_sget; [lia|lia|apply Rin; lia|]. fold o.
  destruct (ltb kd (key kd (v (o + r))) pv) eqn:E.
  - apply swp_bind, swp_sswap; [lia|lia|lia|apply Rin; lia..|]. fold o.
    apply swp_ret. split; [|lia].
    split; [|split; [|repeat (split; [lia|])]].
    + intros i Hi. destruct (Z.eq_dec i r) as [->|]; [rewrite swapv_l; apply Hok; lia|].
      destruct (Z.eq_dec i k) as [->|]; [rewrite swapv_r; apply Hok; lia|].
      rewrite swapv_o by lia. apply Hok; lia.
    + eapply permR_trans; [exact Hp|]. apply permR_swap; lia.
    + split; [|split].
      * intros i Hi. destruct (Z.eq_dec i k) as [->|].
        { rewrite swapv_r. apply sLo_Lo; [apply Hok; lia|exact E]. }
        rewrite swapv_o by lia. apply HL; lia.
      * intros i Hi. destruct (Z.eq_dec i r) as [->|].
        { rewrite swapv_l. apply HH; lia. }
        rewrite swapv_o by lia. apply HH; lia.
      * intro Ek. assert (Ekr : k = r) by lia. destruct (Hx Ekr) as [Hv Hs].
        replace k with r by lia. split.
        { intro i. rewrite swapv_same. apply Hv. }
        intros i Hi. rewrite swapv_same. destruct (Z.eq_dec i r) as [->|]; [exact E|apply Hs; lia].
  - apply swp_ret. split; [|lia].
    split; [exact Hok|]. split; [exact Hp|]. repeat (split; [lia|]). split; [exact HL|]. split.
    + intros i Hi. destruct (Z.eq_dec i r) as [->|]; [|apply HH; lia].
      apply nsLo_Hi; [apply Hok; lia|exact E].
    + intro; lia.
Qed.

End Gap.
End Piv.
End Part.
