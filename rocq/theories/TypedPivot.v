(** * Pivot selection of the typed sorters *)

From Coq Require Import List ZArith Lia Bool Permutation.
From Verif Require Import Lang SeqLogic Base Scalar Typed SeqOps ScalarFacts TypedPart.
Import ListNotations.
Open Scope Z_scope.

Local Arguments Z.mul : simpl never.
Local Arguments Z.add : simpl never.
Local Arguments Z.sub : simpl never.
Local Arguments Z.pow : simpl never.

Section Pivot.
Context {Wd : word}.
Context {T K : Type}.
Variable kd : kind T K.
Variable bodyT : proc K -> cmd (proc K) T unit.
Variable ok : K -> Prop.
Hypothesis LW : laws kd ok.
Notation swp := (swp bodyT).

Lemma le_refl x : ok x -> leb kd x x = true.
Proof.
  intro H. rewrite (law_le _ _ LW) by assumption.
  destruct (ltb kd x x) eqn:E; [|reflexivity].
  rewrite (law_asym _ _ LW x x H H E) in E. discriminate.
Qed.

Lemma lt_le x y : ok x -> ok y -> ltb kd x y = true -> leb kd x y = true.
Proof. intros Hx Hy H. rewrite (law_le _ _ LW), (law_asym _ _ LW x y) by assumption. reflexivity. Qed.

Lemma nlt_le x y : ok x -> ok y -> ltb kd x y = false -> leb kd y x = true.
Proof. intros Hx Hy H. rewrite (law_le _ _ LW), H by assumption. reflexivity. Qed.

Lemma le_nlt x y : ok x -> ok y -> leb kd y x = true -> ltb kd x y = false.
Proof. intros Hx Hy H. rewrite (law_le _ _ LW) in H by assumption. destruct (ltb kd x y); auto. Qed.

(** [pv] is a usable pivot for slice [s] in view [v]: ok, and at least [c] distinct
    cells hold elements <= pv, and some cell one >= pv. *)
Definition goodPivot (s : slice) (c : nat) (v : Z -> T) (pv : K) : Prop :=
  ok pv /\
  (exists L, NoDup L /\ (c <= length L)%nat /\
     forall i, In i L -> 0 <= i < len s /\ Lo kd pv (v (off s + i))) /\
  (exists j, 0 <= j < len s /\ Hi kd pv (v (off s + j))).

(** What partOne needs: an element <= pv that is not in the last cell, and one >= pv. *)
Definition properPivot (s : slice) (v : Z -> T) (pv : K) : Prop :=
  ok pv /\
  (exists i, 0 <= i < len s - 1 /\ Lo kd pv (v (off s + i))) /\
  (exists j, 0 <= j < len s /\ Hi kd pv (v (off s + j))).

Lemma good_proper s c v pv : (2 <= c)%nat -> goodPivot s c v pv -> properPivot s v pv.
Proof.
  intros Hc (H1 & (L & Hn & Hl & HL) & H3). split; [exact H1|]. split; [|exact H3].
  destruct L as [|a [|b L]]; [simpl in Hl; lia|simpl in Hl; lia|].
  assert (Hab : a <> b).
  { intro E. subst. inversion Hn as [|? ? Hx _]. apply Hx. left; reflexivity. }
  destruct (HL a ltac:(simpl; auto)) as [Ha1 Ha2]. destruct (HL b ltac:(simpl; auto)) as [Hb1 Hb2].
  destruct (Z.lt_ge_cases a (len s - 1)); [exists a; split; [lia|assumption]|].
  exists b; split; [lia|assumption].
Qed.

Lemma swp_samples s n first step v D :
  2 <= n -> 0 <= first -> 1 <= step -> first + (n - 1) * step <= len s - 1 -> len s < 2 * wq ->
  swp D (Z.to_nat (2 * (n + 1))) (reg s) (fun _ => False)
    (fun l _ v' => l = seg (fun j => key kd (v (off s + (first + (n - 1 - j) * step)))) 0 n /\ v' = v)
    (samples kd s n first step) v.
Proof.
  intros Hn Hf Hs Hl Hb. unfold samples.
  set (vl := fun j => key kd (v (off s + (first + (n - 1 - j) * step)))).
  apply (swp_loop_var bodyT D 1 (reg s) (fun _ => False)
    (fun '(i, f, acc) w => w = v /\ -1 <= i <= n - 1 /\ (0 <= i -> f = first + (n - 1 - i) * step) /\
                           acc = seg vl (i + 1) n)
    (fun '(i, f, acc) => i + 1)
    (fun l v' => l = seg vl 0 n /\ v' = v)).
  2:{ split; [reflexivity|]. split; [lia|]. split; [intros; lia|].
      unfold seg. rewrite zrange_nil by lia. reflexivity. }
  2:{ lia. }
  2:{ lia. }
  intros [[i f] acc] w (-> & Hi & Ef & ->).
  destruct (Z.leb_spec 0 i) as [C|C].
  2:{ apply swp_ret. split; [|reflexivity]. f_equal. lia. }
  assert (Ef' := Ef C). assert (Hr : 0 <= f <= len s - 1) by nia.
  assert (Hst : step <= len s - 1) by nia.
  apply swp_bind, swp_sget; [lia|lia|unfold reg; lia|]. apply swp_ret.
  split; [|lia]. split; [reflexivity|]. split; [lia|]. split.
  - intro Hi'. rewrite uw_small by lia. lia.
  - replace (i - 1 + 1) with i by lia. unfold seg at 2. rewrite (zrange_cons i n) by lia. simpl.
    f_equal. unfold vl. do 2 f_equal. lia.
Qed.

Lemma filter_all {X} (f : X -> bool) (l : list X) : (forall x, In x l -> f x = true) -> filter f l = l.
Proof.
  induction l as [|x l IH]; intro H; simpl; [reflexivity|].
  rewrite H by (left; reflexivity). f_equal. apply IH. intros y Hy. apply H. right; exact Hy.
Qed.

Definition cPivot : Z := 400.

Lemma swp_pivot s n v D :
  (n = 8 \/ n = 6) -> 2 * n <= len s -> len s < 2 * wq ->
  (forall i, 0 <= i < len s -> ok (key kd (v (off s + i)))) ->
  swp D (Z.to_nat cPivot) (reg s) (fun _ => False)
    (fun pv _ v' => v' = v /\ goodPivot s 3 v pv)
    (pivot kd s (nsamples kd n)) v.
Proof.
  intros Hn Hl Hb Hok. unfold pivot.
  set (m := nsamples kd n).
  assert (Hm : m = n /\ even kd = true \/ m = n - 1 /\ even kd = false).
  { unfold m, nsamples. destruct (even kd); auto. }
  assert (Hm5 : 5 <= m <= 8) by lia.
  rewrite uw_small by lia.
  destruct (minMaxSample_ok (Wd := Wd) (len s) m ltac:(lia) ltac:(lia) ltac:(lia)) as (first & step & E & Hf & Hst & Hlast).
  rewrite E. apply swp_bind.
  eapply swp_apply; [apply (swp_samples s m first step v D); lia|lia|unfold cPivot; lia|auto|auto|].
  cbv beta. intros smp n1 v1 [-> ->] _ Hn1.
  set (vl := fun j => key kd (v (off s + (first + (m - 1 - j) * step)))).
  assert (Hpos : forall j, 0 <= j < m -> 0 <= first + (m - 1 - j) * step < len s) by (intros; nia).
  assert (Hvl : forall j, 0 <= j < m -> ok (vl j)) by (intros; unfold vl; apply Hok, Hpos; assumption).
  eapply (swp_local bodyT (fun _ => Panic) D n1 (Z.to_nat (cIns m)) m _ _
    (fun vl' => bubble (ltb kd) (seg vl 0 m) (seg vl' 0 m) /\ ascending (ltb kd) 0 m vl')
    _ _ _ vl v (fun _ => eq_refl)).
  { eapply swp_use; [apply (swp_insertion (fun _ => Panic) (ltb kd) ok (law_asym _ _ LW)) with (s := Slice 0 m) (v0 := vl) (D := O)|..].
    - intros x y z Hx Hy Hz H1 H2. apply le_nlt; auto. apply (law_trans _ _ LW x y z); auto; apply nlt_le; auto.
    - simpl. lia.
    - simpl. intros i Hi. apply Hvl. lia.
    - lia.
    - simpl. lia.
    - unfold reg; simpl. intros; lia.
    - unfold reg; simpl. intros; lia.
    - change (off (Slice 0 m)) with 0. change (len (Slice 0 m)) with m. rewrite Z.add_0_l. intros a k v' _ H. exact H. }
  { unfold cPivot, cIns in *. nia. }
  intros vl' k Hk [Hbub Hasc].
  assert (Hperm := bubble_perm _ _ _ Hbub).
  assert (Hvl' : forall j, 0 <= j < m -> ok (vl' j)).
  { apply (permR_forall 0 m vl vl' ok); [apply permR_seg; exact Hperm|exact Hvl]. }
  assert (Hle : forall i j, 0 <= i -> i <= j -> j < m -> leb kd (vl' i) (vl' j) = true).
  { intros i j Hi Hij Hj. destruct (Z.eq_dec i j) as [->|]; [apply le_refl; apply Hvl'; lia|].
    apply nlt_le; [apply Hvl'; lia..|]. apply Hasc; lia. }
  (* a pivot with c small sorted samples below it and one above is good *)
  assert (Hgood : forall pv c d, ok pv -> 0 <= c -> c <= d < m ->
            leb kd (vl' c) pv = true -> leb kd pv (vl' d) = true ->
            goodPivot s (Z.to_nat (c + 1)) v pv).
  { intros pv c d Hpv Hc Hcd H1 H2. split; [exact Hpv|]. split.
    - set (f := fun x => leb kd x pv).
      exists (map (fun j => first + (m - 1 - j) * step) (filter (fun j => f (vl j)) (zrange 0 m))).
      split; [|split].
      + apply FinFun.Injective_map_NoDup; [|apply NoDup_filter, NoDup_zrange].
        intros x y Hxy. nia.
      + rewrite map_length. rewrite <- (map_length vl).
        rewrite <- (filter_map f vl). fold (seg vl 0 m).
        rewrite <- (filter_perm_length f _ _ Hperm).
        rewrite <- (seg_app vl' 0 (c + 1) m) by lia. rewrite filter_app, app_length.
        rewrite (filter_all f (seg vl' 0 (c + 1))).
        * rewrite seg_length. lia.
        * intros x Hx. apply In_seg in Hx. destruct Hx as (i & Hi & <-). unfold f.
          apply (law_trans _ _ LW _ (vl' c)); [apply Hvl'; lia..|exact Hpv|apply Hle; lia|exact H1].
      + intros i Hi. apply in_map_iff in Hi. destruct Hi as (j & <- & Hj).
        apply filter_In in Hj. destruct Hj as [Hj Hfj]. apply In_zrange in Hj.
        split; [apply Hpos; exact Hj|exact Hfj].
    - destruct (permL_In (zrange 0 m) vl vl' d Hperm ltac:(apply In_zrange; lia)) as (j & Hj & Ej).
      apply In_zrange in Hj. exists (first + (m - 1 - j) * step). split; [apply Hpos; exact Hj|].
      unfold Hi. change (leb kd pv (vl j) = true). rewrite Ej. exact H2. }
  rewrite shiftr1. destruct Hm as [[Em Ee]|[Em Ee]]; rewrite Ee.
  - assert (Hd : m / 2 = 4 \/ m / 2 = 3) by (destruct Hn; subst n; rewrite Em; [left|right]; reflexivity).
    assert (m / 2 < m) by (apply Z.div_lt; lia).
    rewrite !lget_seg by lia. apply swp_ret. split; [reflexivity|].
    destruct (law_mean _ _ LW Ee (vl' (m / 2 - 1)) (vl' (m / 2))) as [Hk1 Hk2]; [apply Hvl'; lia..|].
    assert (Hle1 := Hle (m / 2 - 1) (m / 2) ltac:(lia) ltac:(lia) ltac:(lia)).
    set (x := vl' (m / 2 - 1)) in *. set (y := vl' (m / 2)) in *.
    assert (ok x) by (apply Hvl'; lia). assert (ok y) by (apply Hvl'; lia).
    assert (Hb2 : leb kd x (mean kd x y) = true /\ leb kd (mean kd x y) y = true).
    { destruct Hk2 as [?|[H2 H3]]; [assumption|]. split.
      - apply (law_trans _ _ LW _ y); auto.
      - apply (law_trans _ _ LW _ x); auto. }
    assert (G := Hgood (mean kd x y) (m / 2 - 1) (m / 2) Hk1 ltac:(lia) ltac:(lia) (proj1 Hb2) (proj2 Hb2)).
    destruct G as (G1 & (L & G2 & G3 & G4) & G5). split; [exact G1|]. split; [|exact G5].
    exists L. split; [exact G2|]. split; [lia|exact G4].
  - assert (Hd : m / 2 = 3 \/ m / 2 = 2) by (destruct Hn; subst n; rewrite Em; [left|right]; reflexivity).
    rewrite !lget_seg by lia. apply swp_ret. split; [reflexivity|].
    assert (G := Hgood (vl' (m / 2)) (m / 2) (m / 2) ltac:(apply Hvl'; lia) ltac:(lia) ltac:(lia)
                   ltac:(apply le_refl, Hvl'; lia) ltac:(apply le_refl, Hvl'; lia)).
    destruct G as (G1 & (L & G2 & G3 & G4) & G5). split; [exact G1|]. split; [|exact G5].
    exists L. split; [exact G2|]. split; [lia|exact G4].
Qed.

Lemma swp_pivotShort s v D :
  9 <= len s -> len s < 2 * wq ->
  (forall i, 0 <= i < len s -> ok (key kd (v (off s + i)))) ->
  swp D 4 (reg s) (fun _ => False)
    (fun pv _ v' => v' = v /\ properPivot s v pv)
    (pivotShort kd s) v.
Proof.
  intros Hl Hb Hok. unfold pivotShort. destruct (even kd) eqn:Ee.
  - destruct (minMaxFour (u32 (len s))) as [first step] eqn:E.
    destruct (minMaxFour_ok (len s) first step Hl E) as (HA & HB & HC & HD).
    set (iB := u32 (first + step)) in *. set (iC := u32 (first + u32 (2 * step))) in *.
    set (iD := u32 (first + u32 (3 * step))) in *.
    apply swp_bind, swp_sget; [lia|lia|unfold reg; lia|].
    apply swp_bind, swp_sget; [lia|lia|unfold reg; lia|].
    apply swp_bind, swp_sget; [lia|lia|unfold reg; lia|].
    apply swp_bind, swp_sget; [lia|lia|unfold reg; lia|]. cbv zeta.
    set (a := key kd (v (off s + first))). set (b := key kd (v (off s + iB))).
    set (c := key kd (v (off s + iC))). set (d := key kd (v (off s + iD))).
    assert (oka : ok a) by (apply Hok; lia). assert (okb : ok b) by (apply Hok; lia).
    assert (okc : ok c) by (apply Hok; lia). assert (okd : ok d) by (apply Hok; lia).
    (* (d,b) sorted, (c,a) sorted *)
    assert (S1 : exists d1 b1, (if ltb kd d b then (b, d) else (d, b)) = (d1, b1) /\
              leb kd b1 d1 = true /\ (d1 = b /\ b1 = d \/ d1 = d /\ b1 = b)).
    { destruct (ltb kd d b) eqn:E1.
      - exists b, d. repeat split; auto. apply lt_le; auto.
      - exists d, b. repeat split; auto. apply nlt_le; auto. }
    destruct S1 as (d1 & b1 & -> & S1 & S1').
    assert (S2 : exists c1 a1, (if ltb kd c a then (a, c) else (c, a)) = (c1, a1) /\
              leb kd a1 c1 = true /\ (c1 = a /\ a1 = c \/ c1 = c /\ a1 = a)).
    { destruct (ltb kd c a) eqn:E1.
      - exists a, c. repeat split; auto. apply lt_le; auto.
      - exists c, a. repeat split; auto. apply nlt_le; auto. }
    destruct S2 as (c1 & a1 & -> & S2 & S2').
    assert (okd1 : ok d1) by (destruct S1' as [[-> _]|[-> _]]; auto).
    assert (okb1 : ok b1) by (destruct S1' as [[_ ->]|[_ ->]]; auto).
    assert (okc1 : ok c1) by (destruct S2' as [[-> _]|[-> _]]; auto).
    assert (oka1 : ok a1) by (destruct S2' as [[_ ->]|[_ ->]]; auto).
    set (c2 := if ltb kd d1 c1 then d1 else c1). set (b2 := if ltb kd b1 a1 then a1 else b1).
    assert (okc2 : ok c2) by (unfold c2; destruct (ltb kd d1 c1); auto).
    assert (okb2 : ok b2) by (unfold b2; destruct (ltb kd b1 a1); auto).
    apply swp_ret. split; [reflexivity|].
    destruct (law_mean _ _ LW Ee b2 c2 okb2 okc2) as [okpv Hbet].
    set (pv := mean kd b2 c2) in *. clearbody pv.
    (* a1 <= b2 *)
    assert (Hab : leb kd a1 b2 = true).
    { unfold b2. destruct (ltb kd b1 a1) eqn:E1; [apply le_refl; auto|apply nlt_le; auto]. }
    (* small element in a cell other than the last sample *)
    assert (Hsmall : exists x, leb kd x pv = true /\ (x = a \/ x = b \/ x = c)).
    { assert (Hcase : leb kd b2 pv = true \/ leb kd c2 pv = true) by tauto.
      destruct Hcase as [H1|H1].
      - exists a1. split; [apply (law_trans _ _ LW _ b2); auto|].
        destruct S2' as [[_ ->]|[_ ->]]; auto.
      - unfold c2 in H1. destruct (ltb kd d1 c1) eqn:E1.
        + destruct S1' as [[Ed Eb]|[Ed Eb]].
          * exists b. rewrite <- Ed. auto.
          * exists b. rewrite <- Eb. split; [apply (law_trans _ _ LW _ d1); auto|auto].
        + exists c1. split; [exact H1|]. destruct S2' as [[-> _]|[-> _]]; auto. }
    assert (Hbig : exists x, leb kd pv x = true /\ (x = a \/ x = b \/ x = c \/ x = d)).
    { assert (Hcase : leb kd pv b2 = true \/ leb kd pv c2 = true) by tauto.
      destruct Hcase as [H1|H1].
      - exists b2. split; [exact H1|]. unfold b2. destruct (ltb kd b1 a1).
        + destruct S2' as [[_ ->]|[_ ->]]; auto.
        + destruct S1' as [[_ ->]|[_ ->]]; auto.
      - exists c2. split; [exact H1|]. unfold c2. destruct (ltb kd d1 c1).
        + destruct S1' as [[-> _]|[-> _]]; auto.
        + destruct S2' as [[-> _]|[-> _]]; auto. }
    split; [exact okpv|]. split.
    + destruct Hsmall as (x & Hx & Hcase). destruct Hcase as [ -> | [ -> | -> ] ];
        [exists first|exists iB|exists iC]; (split; [lia|exact Hx]).
    + destruct Hbig as (x & Hx & Hcase). destruct Hcase as [->|[ -> | [ -> | -> ] ]];
        [exists first|exists iB|exists iC|exists iD]; (split; [lia|exact Hx]).
  - rewrite (uw_small (len s)) by lia.
    destruct (minMaxSample_ok (Wd := Wd) (len s) 3 ltac:(lia) ltac:(lia) ltac:(lia)) as (first & step & E & Hf & Hst & Hlast).
    rewrite E. rewrite (uw_small (first + step)) by lia.
    apply swp_bind, swp_sget; [lia|lia|unfold reg; lia|].
    apply swp_bind, swp_sget; [lia|lia|unfold reg; lia|].
    apply swp_bind, swp_sget; [lia|lia|unfold reg; lia|]. cbv zeta.
    set (f := key kd (v (off s + first))). set (p := key kd (v (off s + (first + step)))).
    set (l := key kd (v (off s + (first + (3 - 1) * step)))).
    assert (okf : ok f) by (apply Hok; lia). assert (okp : ok p) by (apply Hok; lia).
    assert (okl : ok l) by (apply Hok; lia).
    assert (S1 : exists p1 f1, (if ltb kd p f then (f, p) else (p, f)) = (p1, f1) /\
              leb kd f1 p1 = true /\ (p1 = f /\ f1 = p \/ p1 = p /\ f1 = f)).
    { destruct (ltb kd p f) eqn:E1.
      - exists f, p. repeat split; auto. apply lt_le; auto.
      - exists p, f. repeat split; auto. apply nlt_le; auto. }
    destruct S1 as (p1 & f1 & -> & S1 & S1').
    assert (okp1 : ok p1) by (destruct S1' as [[-> _]|[-> _]]; auto).
    assert (okf1 : ok f1) by (destruct S1' as [[_ ->]|[_ ->]]; auto).
    apply swp_ret. split; [reflexivity|].
    assert (G : forall pv, ok pv -> (exists x, leb kd x pv = true /\ (x = f \/ x = p)) ->
              (exists x, leb kd pv x = true /\ (x = f \/ x = p \/ x = l)) -> properPivot s v pv).
    { intros pv Hpv (x & Hx & Hcx) (y & Hy & Hcy). split; [exact Hpv|]. split.
      - destruct Hcx as [ -> | -> ]; [exists first|exists (first + step)]; (split; [lia|exact Hx]).
      - destruct Hcy as [ -> | [ -> | -> ] ];
          [exists first|exists (first + step)|exists (first + (3 - 1) * step)]; (split; [lia|exact Hy]). }
    assert (Hf1 : f1 = f \/ f1 = p) by (destruct S1' as [[_ ->]|[_ ->]]; auto).
    assert (Hp1 : p1 = f \/ p1 = p) by (destruct S1' as [[-> _]|[-> _]]; auto).
    destruct (ltb kd l p1) eqn:E1; [destruct (ltb kd l f1) eqn:E2|].
    + apply G; [exact okf1| |].
      * exists f1. split; [apply le_refl; auto|exact Hf1].
      * exists f1. split; [apply le_refl; auto|tauto].
    + apply G; [exact okl| |].
      * exists f1. split; [apply nlt_le; auto|exact Hf1].
      * exists l. split; [apply le_refl; auto|tauto].
    + apply G; [exact okp1| |].
      * exists p1. split; [apply le_refl; auto|exact Hp1].
      * exists p1. split; [apply le_refl; auto|tauto].
Qed.

End Pivot.
