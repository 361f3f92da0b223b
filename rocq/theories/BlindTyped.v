(** * The typed sorters on a slice that others change meanwhile

    Index ranges and the protocol of the goroutines do not depend on the elements: proved here
    for the erased program ([Erase.v]), in which every value that is read is chosen by the
    environment.  (That the sorters end does depend on the elements.) *)

From Coq Require Import List ZArith Lia Bool.
From Verif Require Import Lang SeqLogic ConcLogic SafeLogic Base Scalar Typed SeqOps ScalarFacts TypedPart
  TypedPivot TypedShort ConcSort TypedLong TypedSort AnySeq AnySort Kinds Erase.
Import ListNotations.
Open Scope Z_scope.

Local Arguments Z.mul : simpl never.
Local Arguments Z.add : simpl never.
Local Arguments Z.sub : simpl never.
Local Arguments Z.pow : simpl never.

Lemma list_seg {X} (d : X) l : l = seg (fun j => nth (Z.to_nat j) l d) 0 (Z.of_nat (length l)).
Proof.
  apply (nth_ext _ _ d d).
  - rewrite seg_length. lia.
  - intros n Hn. unfold seg, zrange. rewrite !map_map.
    rewrite (nth_indep (map _ _) d (nth (Z.to_nat (0 + Z.of_nat 0)) l d)).
    2:{ rewrite map_length, seq_length. lia. }
    rewrite (map_nth (fun k => nth (Z.to_nat (0 + Z.of_nat k)) l d)), seq_nth by lia. f_equal. lia.
Qed.

Section Blind.
Context {Wd : word}.
Context {T K : Type}.
Variable kd : kind T K.               (* no assumption about its comparisons *)
Variable tn : tuning.
Variable meanI : Z -> Z -> Z.
Hypothesis HmeanI : meanOk meanI.

Notation maxIns := (maxIns kd tn).
Notation maxRec := (maxRec kd tn).
Hypothesis HIns : 9 <= maxIns.
Hypothesis HRec : 2 * maxIns < maxRec.
Hypothesis HRec2 : maxRec < wq - 1.

Variable f : Z -> T.
Variable S0 : slice.                  (* the slice to sort *)
Hypothesis Hb0 : len S0 < 2 * wq.
Definition inside (i : Z) : bool := (off S0 <=? i) && (i <? off S0 + len S0).

Notation body := (Typed.body kd tn).
Notation er := (erase f inside).
Definition sbody (p : proc K) : cmd (proc K) unit unit := er (body p).

Ltac ub := match goal with |- context [sbody ?p] => change (sbody p) with (er (body p)) end.

Variable Dm : nat.
Notation G := (typedGrain kd tn).
Notation sp := (sp (Gr := G) sbody Dm).

(** ** Code of one goroutine *)

Definition ss (m D : nat) {A} (Q : A -> Prop) (c : cmd (proc K) T A) : Prop :=
  forall g, live g -> sp m D (fun a g' => Q a /\ exists x, g' = setseen g x) (er c) g.

Lemma ss_conseq m D1 D {A} (Q1 Q : A -> Prop) c : ss m D1 Q1 c -> (D1 <= D)%nat -> (forall a, Q1 a -> Q a) -> ss m D Q c.
Proof.
  intros H HD HQ g Hg. eapply sp_conseq; [exact (H g Hg)|exact HD|]. cbv beta. intros a g' [H1 H2]. auto.
Qed.

Lemma ss_ret m D {A} (Q : A -> Prop) a : Q a -> ss m D Q (Ret a).
Proof. intros H g Hg. apply sp_ret. split; [exact H|]. exists (seen g). destruct g; reflexivity. Qed.

Lemma ss_bind m D {A B} (Q1 : B -> Prop) (Q : A -> Prop) (c : cmd (proc K) T B) k :
  ss m D Q1 c -> (forall b m', (m' <= m)%nat -> Q1 b -> ss m' D Q (k b)) -> ss m D Q (Bind c k).
Proof.
  intros H HK g Hg. cbn [erase]. eapply sp_bind; [exact (H g Hg)|]. cbv beta. intros b g' m' Hm [H1 [x ->]].
  eapply sp_conseq; [apply HK; [exact Hm|exact H1|exact Hg]|apply le_n|].
  cbv beta. intros a g2 [H2 [y ->]]. split; [exact H2|]. exists y. reflexivity.
Qed.

Lemma ss_loop m D {A S} (Inv : S -> Prop) (Q : A -> Prop) (bd : S -> cmd (proc K) T (S + A)) :
  (forall s m', (m' < m)%nat -> Inv s -> ss m' D (fun r => match r with inl s' => Inv s' | inr a => Q a end) (bd s)) ->
  forall s, Inv s -> ss m D Q (Loop s bd).
Proof.
  intros H s HI g Hg. cbn [erase].
  apply (sp_loop sbody Dm m D (fun s g' => Inv s /\ exists x, g' = setseen g x)).
  - intros s1 g1 m' Hm [H1 [x ->]]. eapply sp_conseq; [apply (H s1 m' Hm H1); exact Hg|apply le_n|].
    cbv beta. intros [s2|a] g2 [H2 [y ->]]; (split; [exact H2|exists y; reflexivity]).
  - split; [exact HI|]. exists (seen g). destruct g; reflexivity.
Qed.

Lemma ss_call m D {A} (Q1 : unit -> Prop) (Q : A -> Prop) p (k : cmd (proc K) T A) : (0 < D)%nat ->
  (forall m', (m' < m)%nat -> ss m' (D - 1) Q1 (body p)) ->
  (forall m', (m' < m)%nat -> Q1 tt -> ss m' D Q k) -> ss m D Q (Call p k).
Proof.
  intros HD H HK g Hg. cbn [erase].
  eapply (sp_call sbody Dm m D _ p _ g (fun a g' => Q1 a /\ exists x, g' = setseen g x)); [exact HD|exact Hg| |].
  - intros m' Hm. ub. apply (H m' Hm). exact Hg.
  - intros g' m' Hm [H1 [x ->]]. eapply sp_conseq; [apply (HK m' Hm H1); exact Hg|apply le_n|].
    cbv beta. intros a g2 [H2 [y ->]]. split; [exact H2|]. exists y. reflexivity.
Qed.

Lemma inside_in s i : within s S0 -> 0 <= i < len s -> inside (off s + i) = true.
Proof. unfold within, inside. lia. Qed.

Lemma ss_get m D {A} (Q : A -> Prop) s i k : within s S0 -> 0 <= i < len s ->
  (forall x m', (m' <= m)%nat -> ss m' D Q (k x)) -> ss m D Q (Bind (sget s i) k).
Proof.
  intros Hw Hi HK. apply (ss_bind m D (fun _ => True)); [|intros; apply HK; assumption].
  intros g Hg. unfold sget. replace ((0 <=? i) && (i <? len s)) with true by lia. cbn [erase].
  rewrite (inside_in s i Hw Hi). apply sp_loadmax; [exact Hg|]. intros z m' _ _. apply sp_ret. split; [exact I|].
  exists z. reflexivity.
Qed.

Lemma ss_set m D {A} (Q : A -> Prop) s i x k : within s S0 -> 0 <= i < len s ->
  (forall m', (m' <= m)%nat -> ss m' D Q (k tt)) -> ss m D Q (Bind (sset s i x) k).
Proof.
  intros Hw Hi HK. apply (ss_bind m D (fun _ => True)); [|intros [] m' Hm _; apply HK; assumption].
  intros g Hg. unfold sset. replace ((0 <=? i) && (i <? len s)) with true by lia. cbn [erase].
  rewrite (inside_in s i Hw Hi). apply sp_loadmax; [exact Hg|]. intros z m' _ _. apply sp_ret. split; [exact I|].
  exists z. reflexivity.
Qed.

Lemma ss_setlast m D (Q : unit -> Prop) s i x : within s S0 -> 0 <= i < len s -> Q tt -> ss m D Q (sset s i x).
Proof.
  intros Hw Hi HQ g Hg. unfold sset. replace ((0 <=? i) && (i <? len s)) with true by lia. cbn [erase].
  rewrite (inside_in s i Hw Hi). apply sp_loadmax; [exact Hg|]. intros z m' _ _. apply sp_ret. split; [exact HQ|].
  exists z. reflexivity.
Qed.

Lemma ss_swap m D {A} (Q : A -> Prop) s l h k : within s S0 -> 0 <= l < len s -> 0 <= h < len s ->
  (forall m', (m' <= m)%nat -> ss m' D Q (k tt)) -> ss m D Q (Bind (sswap s l h) k).
Proof.
  intros Hw Hl Hh HK. apply (ss_bind m D (fun _ => True)); [|intros [] m' Hm _; apply HK; assumption].
  unfold sswap. apply ss_get; [exact Hw|lia|]. intros x m1 _. apply ss_get; [exact Hw|lia|]. intros y m2 _.
  apply ss_set; [exact Hw|lia|]. intros m3 _. apply ss_setlast; [exact Hw|lia|exact I].
Qed.

Lemma ss_reslice m D {A} (Q : A -> Prop) s l h k : 0 <= l -> l <= h -> h <= len s ->
  (forall m', (m' <= m)%nat -> ss m' D Q (k (Slice (off s + l) (h - l)))) -> ss m D Q (Bind (reslice s l h) k).
Proof.
  intros H1 H2 H3 HK. unfold reslice. replace ((0 <=? l) && (l <=? h) && (h <=? len s)) with true by lia.
  apply (ss_bind m D (fun x => x = Slice (off s + l) (h - l))); [apply ss_ret; reflexivity|].
  intros x m' Hm ->. apply HK. exact Hm.
Qed.

(** ** Insertion sort and pivot selection *)

Lemma ss_insertion m D lt s : within s S0 -> 0 <= len s -> ss m D (fun _ => True) (insertion lt s).
Proof.
  intros Hw H0. unfold insertion. apply (ss_loop m D (fun h => 1 <= h)); [|lia].
  intros h m1 _ Hh. destruct (Z.ltb_spec h (len s)) as [C|C]; [|apply ss_ret; exact I].
  apply ss_get; [exact Hw|lia|]. intros x m2 _.
  apply (ss_bind _ _ (fun r => match r with Some l => 0 <= l < len s | None => True end)).
  - apply (ss_loop m2 D (fun l => 1 <= l <= h)); [|lia]. intros l m3 _ Hl.
    apply ss_get; [exact Hw|lia|]. intros y m4 _. destruct (lt x y).
    + apply ss_set; [exact Hw|lia|]. intros m5 _. destruct (Z.eqb_spec (l - 1) 0); apply ss_ret; lia.
    + destruct (l =? h); apply ss_ret; [exact I|lia].
  - intros [l|] m3 _ Hl; [|apply ss_ret; lia]. apply ss_set; [exact Hw|lia|]. intros m4 _. apply ss_ret. lia.
Qed.

Lemma ss_samples m D s n first step : within s S0 -> 2 <= n -> 0 <= first -> 1 <= step ->
  first + (n - 1) * step <= len s - 1 ->
  ss m D (fun l => Z.of_nat (length l) = n) (samples kd s n first step).
Proof.
  intros Hw Hn Hf Hs Hl. unfold samples. assert (Hbs : len s < 2 * wq) by (unfold within in Hw; lia).
  apply (ss_loop m D (fun '(i, f, acc) => -1 <= i <= n - 1 /\ (0 <= i -> f = first + (n - 1 - i) * step) /\
      Z.of_nat (length acc) = n - 1 - i)).
  2:{ cbn [length]. split; [lia|]. split; intros; lia. }
  intros [[i fi] acc] m1 _ (Hi & Ef & Ea). destruct (Z.leb_spec 0 i) as [C|C]; [|apply ss_ret; lia].
  assert (Ef' := Ef C). assert (Hr : 0 <= fi <= len s - 1) by nia. assert (Hst : step <= len s - 1) by nia.
  apply ss_get; [exact Hw|lia|]. intros x m2 _. apply ss_ret. cbn [length]. split; [lia|]. split; [|lia].
  intro Hi'. rewrite uw_small by lia. lia.
Qed.

Lemma ss_pivot m D s n : (n = 8 \/ n = 6) -> 2 * n <= len s -> within s S0 ->
  ss m D (fun _ => True) (pivot kd s (nsamples kd n)).
Proof.
  intros Hn Hl Hw. unfold pivot. assert (Hbs : len s < 2 * wq) by (unfold within in Hw; lia).
  set (q := nsamples kd n).
  assert (Hm : q = n /\ even kd = true \/ q = n - 1 /\ even kd = false).
  { unfold q, nsamples. destruct (even kd); auto. }
  assert (Hm5 : 5 <= q <= 8) by lia.
  rewrite uw_small by lia.
  destruct (minMaxSample_ok (Wd := Wd) (len s) q ltac:(lia) ltac:(lia) ltac:(lia)) as (first & step & E & Hf & Hst & Hlast).
  rewrite E. apply (ss_bind _ _ (fun l => Z.of_nat (length l) = q)); [apply ss_samples; try assumption; lia|].
  intros smp m1 _ Hlen g Hg. cbn [erase].
  rewrite (list_seg (key kd (f 0)) smp), Hlen. set (vl := fun j => nth (Z.to_nat j) smp (key kd (f 0))).
  eapply (sp_seq sbody Dm m1 0 D (Z.to_nat (cIns q + 1)) empty empty (fun _ _ v' => v' = val g)); [exact Hg| |lia|intros i []|intros i []|].
  - eapply (swp_local sbody (fun _ => Panic) 0 _ (Z.to_nat (cIns q)) q _ _ (fun vl' => True) _ _ _ vl (val g) (fun _ => eq_refl)).
    + eapply swp_use; [apply (swp_insertion_any (fun _ => Panic) (ltb kd)) with (s := Slice 0 q) (v0 := vl) (D := O)|..].
      * simpl. lia.
      * lia.
      * simpl. lia.
      * unfold reg; simpl. intros; lia.
      * unfold reg; simpl. intros; lia.
      * auto.
    + unfold cIns. nia.
    + intros vl' k Hk _. rewrite shiftr1. destruct Hm as [[Em Ee]|[Em Ee]]; rewrite Ee.
      * assert (Hd : q / 2 = 4 \/ q / 2 = 3) by (destruct Hn; subst n; rewrite Em; [left|right]; reflexivity).
        assert (q / 2 < q) by (apply Z.div_lt; lia).
        rewrite !lget_seg by lia. cbn [erase]. apply swp_ret. reflexivity.
      * assert (Hd : q / 2 = 3 \/ q / 2 = 2) by (destruct Hn; subst n; rewrite Em; [left|right]; reflexivity).
        rewrite !lget_seg by lia. cbn [erase]. apply swp_ret. reflexivity.
  - cbv beta. intros a j v' -> _. split; [exact I|]. exists (seen g). destruct g; reflexivity.
Qed.

Lemma ss_pivotShort m D s : 9 <= len s -> within s S0 -> ss m D (fun _ => True) (pivotShort kd s).
Proof.
  intros Hl Hw. unfold pivotShort. assert (Hbs : len s < 2 * wq) by (unfold within in Hw; lia). destruct (even kd) eqn:Ee.
  - destruct (minMaxFour (u32 (len s))) as [first step] eqn:E.
    destruct (minMaxFour_ok (len s) first step Hl E) as (HA & HB & HC & HD).
    do 4 (apply ss_get; [exact Hw|lia|]; intros ? ? _). cbv zeta.
    repeat match goal with |- context [if ?b then _ else _] => destruct b end; apply ss_ret; exact I.
  - rewrite (uw_small (len s)) by lia.
    destruct (minMaxSample_ok (Wd := Wd) (len s) 3 ltac:(lia) ltac:(lia) ltac:(lia)) as (first & step & E & Hf & Hst & Hlast).
    rewrite E. rewrite (uw_small (first + step)) by lia.
    do 3 (apply ss_get; [exact Hw|lia|]; intros ? ? _). cbv zeta.
    repeat match goal with |- context [if ?b then _ else _] => destruct b end; apply ss_ret; exact I.
Qed.

(** ** Partitioning *)

Lemma ss_partOne m D s pv : 0 <= len s -> within s S0 -> ss m D (fun k => 0 <= k <= len s) (partOne kd s pv).
Proof.
  intros H0 Hw. unfold partOne.
  apply (ss_loop m D (fun st => match st with
     | LStart l h => 0 <= l /\ h <= len s - 1 /\ l - 1 <= h
     | LLast l h => 0 <= l /\ h <= len s - 1 /\ l - 1 <= h <= l
     | LSecond l h | LSwap l h | LNext l h | LScan l h => 0 <= l < h /\ h <= len s - 1
     end)); [|lia].
  intros [l h|l h|l h|l h|l h|l h] m1 _ Hst; cbv zeta.
  - destruct (Z.leb_spec (h - 1) l); [apply ss_ret; lia|].
    apply ss_get; [exact Hw|lia|]. intros x m2 _. destruct (leb kd _ pv); apply ss_ret; lia.
  - apply ss_swap; [exact Hw|lia|lia|]. intros m2 _. apply ss_ret. lia.
  - apply ss_ret. lia.
  - destruct (Z.leb_spec h l); [apply ss_ret; lia|].
    apply ss_get; [exact Hw|lia|]. intros x m2 _. destruct (leb kd pv _); [|apply ss_ret; lia].
    apply ss_get; [exact Hw|lia|]. intros y m3 _. destruct (ltb kd pv _); apply ss_ret; lia.
  - apply ss_get; [exact Hw|lia|]. intros x m2 _. destruct (leb kd pv _); [apply ss_ret; lia|].
    destruct (Z.leb_spec h (l + 1)); apply ss_ret; lia.
  - destruct (Z.eqb_spec l h); [|apply ss_ret; lia].
    apply ss_get; [exact Hw|lia|]. intros x m2 _. destruct (ltb kd _ pv); apply ss_ret; lia.
Qed.

Lemma ss_partTwo m D s pv l0 h0 : within s S0 -> -1 <= l0 -> l0 < h0 -> h0 <= len s -> 0 <= h0 ->
  ss m D (fun r => 0 <= r <= l0 \/ h0 <= r <= len s) (partTwo kd s (l0 + 1) h0 pv).
Proof.
  intros Hw Hl0 Hlh Hh0 Hh0'. unfold partTwo. replace (l0 + 1 - 1) with l0 by lia. cbv zeta.
  destruct (Z.leb_spec h0 l0) as [C|_]; [lia|].
  apply (ss_loop m D (fun st => match st with
       | LStart l h => -1 <= l <= l0 /\ h0 <= h <= len s
       | LSecond l h | LSwap l h | LNext l h | LScan l h => 0 <= l <= l0 /\ h0 <= h < len s
       | LLast _ _ => False
       end)); [|lia].
  intros [l h|l h|l h|l h|l h|l h] m1 _ Hst; cbv zeta; [| | | | |contradiction].
  - destruct (Z.leb_spec (len s) (h + 1)); [apply ss_ret; lia|].
    apply ss_get; [exact Hw|lia|]. intros x m2 _. destruct (leb kd _ pv); apply ss_ret; lia.
  - apply ss_swap; [exact Hw|lia|lia|]. intros m2 _. apply ss_ret. lia.
  - apply ss_ret. lia.
  - destruct (Z.ltb_spec l 0); [apply ss_ret; lia|]. destruct (Z.leb_spec (len s) h); [apply ss_ret; lia|].
    apply ss_get; [exact Hw|lia|]. intros x m2 _. destruct (leb kd pv _); [|apply ss_ret; lia].
    apply ss_get; [exact Hw|lia|]. intros y m3 _. destruct (ltb kd pv _); apply ss_ret; lia.
  - apply ss_get; [exact Hw|lia|]. intros x m2 _. destruct (leb kd pv _); [apply ss_ret; lia|].
    destruct (Z.ltb_spec (l - 1) 0); apply ss_ret; lia.
Qed.

Lemma ss_gapLow m D s pv r0 k0 : within s S0 -> -1 <= r0 -> r0 < k0 -> k0 <= len s ->
  ss m D (fun k => 0 <= k <= len s) (gapLow kd s pv r0 k0).
Proof.
  intros Hw Hr0 Hk0 Hk0'. unfold gapLow.
  apply (ss_loop m D (fun '(r, k) => -1 <= r <= r0 /\ r < k <= k0)); [|lia].
  intros [r k] m1 _ Hst. destruct (Z.leb_spec 0 r); [|apply ss_ret; lia].
  apply ss_get; [exact Hw|lia|]. intros x m2 _. destruct (ltb kd pv _); [|apply ss_ret; lia].
  cbv zeta. apply ss_swap; [exact Hw|lia|lia|]. intros m3 _. apply ss_ret. lia.
Qed.

Lemma ss_gapHigh m D s pv r0 k0 : within s S0 -> 0 <= k0 -> k0 <= r0 -> r0 <= len s ->
  ss m D (fun k => 0 <= k <= len s) (gapHigh kd s pv r0 k0).
Proof.
  intros Hw Hk0 Hr0 Hr0'. unfold gapHigh.
  apply (ss_loop m D (fun '(r, k) => r0 <= r <= len s /\ 0 <= k <= r)); [|lia].
  intros [r k] m1 _ Hst. destruct (Z.ltb_spec r (len s)); [|apply ss_ret; lia].
  apply ss_get; [exact Hw|lia|]. intros x m2 _. destruct (ltb kd _ pv); [|apply ss_ret; lia].
  apply ss_swap; [exact Hw|lia|lia|]. intros m3 _. apply ss_ret. lia.
Qed.

Lemma ss_split m D s k : 0 <= k <= len s -> ss m D (fun '(aq, ar) => isSplit s k aq ar) (split s k).
Proof.
  intro Hk. unfold split. destruct (Z.ltb_spec k (len s - k)) as [C|C];
    apply ss_reslice; try lia; intros m1 _; apply ss_reslice; try lia; intros m2 _; apply ss_ret;
    unfold isSplit; cbn [off len]; lia.
Qed.

(** ** shortX, and longX with sv = nil *)

Lemma ss_short : forall m s, maxIns < len s -> within s S0 ->
  ss m (Z.to_nat (Z.log2 (len s))) (fun _ => True) (short kd tn s).
Proof.
  intro m. induction m as [m IH] using lt_wf_ind. intros s Hs Hw. rewrite short_unfold.
  apply (ss_loop m _ (fun st => match st with
    | inl ar => within ar s /\ maxIns < len ar
    | inr (ar, aq) => within ar s /\ within aq s /\ 0 <= len aq /\ 0 < len ar /\ (len aq = 0 -> maxIns < len ar)
    end)).
  2:{ split; [apply within_refl|exact Hs]. }
  intros [ar|[ar aq]] m1 Hm1 Hx; unfold shortBody at 1.
  - destruct Hx as (War & Har). assert (Wa0 := within_trans _ _ _ War Hw).
    apply (ss_bind _ _ (fun _ => True)); [apply ss_pivotShort; [lia|exact Wa0]|]. intros pv m2 Hm2 _.
    apply (ss_bind _ _ (fun k => 0 <= k <= len ar)); [apply ss_partOne; [lia|exact Wa0]|]. intros k m3 Hm3 Hk.
    eapply (ss_bind _ _ (fun '(aq, br) => isSplit ar k aq br)); [apply ss_split; exact Hk|]. intros [aq br] m4 Hm4 Hsp.
    destruct (isSplit_any ar k aq br Hk Hsp) as (Wq & Wr & Rdis & Hq0 & Hsum & Hle & Hoff).
    assert (Wq' := within_trans _ _ _ Wq War). assert (Wr' := within_trans _ _ _ Wr War).
    destruct (Z.ltb_spec maxIns (len aq)) as [C|C].
    + assert (Lq := log2_half (len aq) (len s) ltac:(lia) ltac:(unfold within in *; lia)).
      assert (Lq0 := Z.log2_nonneg (len aq)).
      apply (ss_bind _ _ (fun _ => True)).
      * apply (ss_call _ _ (fun _ => True)); [lia| |intros; apply ss_ret; exact I].
        intros m5 Hm5. cbn [Typed.body]. eapply ss_conseq; [apply (IH m5 ltac:(lia) aq); [lia|eapply within_trans; eassumption]|lia|auto].
      * intros _ m5 Hm5 _. apply ss_ret. split; [exact Wr'|lia].
    + apply ss_ret. repeat split; try assumption; try apply Wr'; try apply Wq'; lia.
  - destruct Hx as (Wr & Wq & Hq0 & Hr0 & Hx).
    apply (ss_bind _ _ (fun _ => True)); [apply ss_insertion; [eapply within_trans; eassumption|exact Hq0]|]. intros _ m2 Hm2 _.
    destruct (Z.ltb_spec maxIns (len ar)) as [C|C]; [apply ss_ret; split; assumption|].
    destruct (Z.ltb_spec 0 (len ar)); [|lia]. destruct (Z.ltb_spec 0 (len aq)); [|lia]. simpl.
    destruct (off ar =? off aq); apply ss_ret; [exact I|]. repeat split; try lia; apply Wr.
Qed.

Lemma ss_small m s : 0 <= len s -> within s S0 ->
  ss m (Z.to_nat (Z.log2 (len s) + 1)) (fun _ => True)
    (if maxIns <? len s then Call (PShort s) (Ret tt) else insertion (ltT kd) s).
Proof.
  intros H0 Hw. assert (L0 := Z.log2_nonneg (len s)).
  destruct (Z.ltb_spec maxIns (len s)) as [C|C]; [|apply ss_insertion; assumption].
  apply (ss_call _ _ (fun _ => True)); [lia| |intros; apply ss_ret; exact I].
  intros m' _. cbn [Typed.body]. eapply ss_conseq; [apply ss_short; assumption|lia|auto].
Qed.

Lemma ss_long : forall m s, maxRec < len s -> within s S0 ->
  ss m (Z.to_nat (Z.log2 (len s) + 1)) (fun _ => True) (long kd tn s false).
Proof.
  intro m. induction m as [m IH] using lt_wf_ind. intros s Hs Hw. rewrite long_unfold.
  apply (ss_loop m _ (fun ar => within ar s /\ maxRec < len ar)).
  2:{ split; [apply within_refl|exact Hs]. }
  intros ar m1 Hm1 (War & Har). assert (Wa0 := within_trans _ _ _ War Hw). unfold longBody at 1.
  apply (ss_bind _ _ (fun _ => True)); [apply ss_pivot; [right; reflexivity|unfold nsLong; lia|exact Wa0]|]. intros pv m2 Hm2 _.
  apply (ss_bind _ _ (fun k => 0 <= k <= len ar)); [apply ss_partOne; [lia|exact Wa0]|]. intros k m3 Hm3 Hk.
  eapply (ss_bind _ _ (fun '(aq, br) => isSplit ar k aq br)); [apply ss_split; exact Hk|]. intros [aq br] m4 Hm4 Hsp.
  destruct (isSplit_any ar k aq br Hk Hsp) as (Wq & Wr & Rdis & Hq0 & Hsum & Hle & Hoff).
  assert (Wq' := within_trans _ _ _ Wq War). assert (Wr' := within_trans _ _ _ Wr War).
  assert (Wq0 := within_trans _ _ _ Wq' Hw). assert (Wr0 := within_trans _ _ _ Wr' Hw).
  assert (Lq : len aq = 0 \/ Z.log2 (len aq) + 1 <= Z.log2 (len s)).
  { destruct (Z.eq_dec (len aq) 0); [left; assumption|right; apply log2_half; unfold within in *; lia]. }
  assert (Lr : Z.log2 (len br) <= Z.log2 (len s)) by (apply Z.log2_le_mono; unfold within in *; lia).
  assert (Ls := Z.log2_nonneg (len s)). assert (Lq0 := Z.log2_nonneg (len aq)).
  destruct (Z.leb_spec (len aq) maxRec) as [Cc|Cc].
  - apply (ss_bind _ _ (fun _ => True)).
    + eapply ss_conseq; [apply (ss_small m4 aq); [lia|exact Wq0]| |auto].
      destruct Lq as [E|]; [rewrite E; change (Z.log2 0) with 0; lia|lia].
    + intros _ m5 Hm5 _. destruct (Z.ltb_spec maxRec (len br)) as [Cr|Cr].
      * apply ss_ret. split; [exact Wr'|exact Cr].
      * apply (ss_call _ _ (fun _ => True)); [lia| |intros; apply ss_ret; exact I].
        intros m6 _. cbn [Typed.body]. eapply ss_conseq; [apply ss_short; [lia|exact Wr0]|lia|auto].
  - apply (ss_bind _ _ (fun b => b = true)); [apply ss_ret; reflexivity|]. intros b m5 Hm5 ->.
    apply (ss_call _ _ (fun _ => True)); [lia| |].
    + intros m6 Hm6. cbn [Typed.body]. eapply ss_conseq; [apply (IH m6 ltac:(lia) aq); [lia|exact Wq0]|lia|auto].
    + intros m6 _ _. apply ss_ret. split; [exact Wr'|lia].
Qed.

(** sortyF4.go:333-366. *)
Lemma ss_prepass m D ne o1 o2 s : 0 <= len s -> within s S0 ->
  ss m D (fun s' => within s' s /\ 0 <= len s') (prepass ne o1 o2 s).
Proof.
  intros H0 Hw. unfold prepass. destruct (o1 =? _); [|destruct (o2 =? _)].
  3:{ apply ss_ret. split; [apply within_refl|exact H0]. }
  - unfold nanToEnd. apply (ss_bind _ _ (fun h => -1 <= h <= len s - 1)).
    + apply (ss_loop m D (fun '(l, h) => 0 <= l /\ -1 <= h <= len s - 1)); [|lia].
      intros [l h] m1 _ Hst. destruct (Z.leb_spec l h); [|apply ss_ret; lia].
      apply ss_get; [exact Hw|lia|]. intros x m2 _. destruct (ne x); [apply ss_ret; lia|].
      apply ss_get; [exact Hw|lia|]. intros y m3 _. destruct (ne y); [|apply ss_ret; lia].
      apply ss_set; [exact Hw|lia|]. intros m4 _. apply ss_set; [exact Hw|lia|]. intros m5 _. apply ss_ret. lia.
    + intros h m1 _ Hh. unfold reslice. replace ((0 <=? 0) && (0 <=? h + 1) && (h + 1 <=? len s)) with true by lia.
      apply ss_ret. unfold within. cbn [off len]. lia.
  - unfold nanToStart. apply (ss_bind _ _ (fun l => 0 <= l <= len s)).
    + apply (ss_loop m D (fun '(l, h) => 0 <= l <= len s /\ h <= len s - 1)); [|lia].
      intros [l h] m1 _ Hst. destruct (Z.leb_spec l h); [|apply ss_ret; lia].
      apply ss_get; [exact Hw|lia|]. intros y m2 _. destruct (ne y); [apply ss_ret; lia|].
      apply ss_get; [exact Hw|lia|]. intros x m3 _. destruct (ne x); [|apply ss_ret; lia].
      apply ss_set; [exact Hw|lia|]. intros m4 _. apply ss_set; [exact Hw|lia|]. intros m5 _. apply ss_ret. lia.
    + intros l m1 _ Hh. unfold reslice. replace ((0 <=? l) && (l <=? len s) && (len s <=? len s)) with true by lia.
      apply ss_ret. unfold within. cbn [off len]. lia.
Qed.

(** ** Goroutines *)

(** Sequential code inside a goroutine. *)
Lemma sp_ss m D1 D {A} (Post : A -> Prop) (Q : A -> gst unit -> Prop) c g :
  ss m D1 Post c -> live g -> (D1 <= D)%nat -> (forall a x, Post a -> Q a (setseen g x)) -> sp m D Q (er c) g.
Proof.
  intros H Hg HD HQ. eapply sp_conseq; [exact (H g Hg)|exact HD|]. cbv beta. intros a g' [H1 [x ->]]. apply HQ. exact H1.
Qed.

Lemma sp_bss m D1 D {A B} (Post : B -> Prop) (Q : A -> gst unit -> Prop) (c : cmd (proc K) T B) k g :
  ss m D1 Post c -> live g -> (D1 <= D)%nat ->
  (forall a x m', (m' <= m)%nat -> Post a -> sp m' D Q (er (k a)) (setseen g x)) -> sp m D Q (er (Bind c k)) g.
Proof.
  intros H Hg HD HQ. cbn [erase]. eapply sp_bind with (Q1 := fun a g' => Post a /\ exists x, g' = setseen g x).
  - eapply sp_ss; [exact H|exact Hg|exact HD|]. eauto.
  - intros b g' m' Hm [H1 [x ->]]. apply HQ; assumption.
Qed.

(** Nothing is promised about the elements. *)
Definition loose (a : act unit) : Prop := idle a /\ forall w, a_P a w.

(** It went on with cells of [R], handing over some of them. *)
Definition went (R : cells) (g : gst unit) (a : act unit) (g' : gst unit) : Prop :=
  exists a', md g' = MAct a' /\ a_main a' = a_main a /\ loose a' /\ forall i, dom g i -> ~ R i -> dom g' i.

Lemma went_seen R g a x : md g = MAct a -> loose a -> went R g a (setseen g x).
Proof. intros Hmd Hl. exists a. split; [exact Hmd|]. split; [reflexivity|]. split; [exact Hl|]. intros i Hi _. exact Hi. Qed.

(** longX with a syncVar. *)
Lemma sp_blong : forall m s g a, maxRec < len s -> within s S0 ->
  md g = MAct a -> loose a -> (forall i, reg s i -> dom g i) ->
  (Z.to_nat (Z.log2 (len s) + 2) <= Dm)%nat ->
  sp m (Z.to_nat (Z.log2 (len s) + 1)) (fun _ g' => went (reg s) g a g') (er (Loop s (longBody kd tn true))) g.
Proof.
  intro m. induction m as [m IH] using lt_wf_ind. intros s g a Hs Hw Hmd Hloose Hdom HDm.
  assert (Hlive : live g) by (unfold live; rewrite Hmd; exact I).
  cbn [erase]. apply sp_loop_step. intros m1 Hm1. unfold longBody at 1.
  eapply (sp_bss m1 O); [apply (ss_pivot m1 O s nsLong); [right; reflexivity|unfold nsLong; lia|exact Hw]|exact Hlive|lia|].
  intros pv x1 m2 Hm2 _.
  eapply (sp_bss m2 O); [apply ss_partOne; [lia|exact Hw]|exact Hlive|lia|]. intros k x2 m3 Hm3 Hk.
  eapply (sp_bss m3 O _ (fun '(aq, ar) => isSplit s k aq ar)); [apply ss_split; exact Hk|exact Hlive|lia|].
  intros [aq ar] x3 m4 Hm4 Hsp.
  destruct (isSplit_any s k aq ar Hk Hsp) as (Wq & Wr & Rdis & Hq0 & Hsum & Hle & Hoff).
  assert (Wq0 := within_trans _ _ _ Wq Hw). assert (Wr0 := within_trans _ _ _ Wr Hw).
  assert (Lq : len aq = 0 \/ Z.log2 (len aq) + 1 <= Z.log2 (len s)).
  { destruct (Z.eq_dec (len aq) 0); [left; assumption|right; apply log2_half; lia]. }
  assert (Lr : Z.log2 (len ar) <= Z.log2 (len s)) by (apply Z.log2_le_mono; lia).
  assert (Ls := Z.log2_nonneg (len s)). assert (Lq0 := Z.log2_nonneg (len aq)).
  assert (Lr0 := Z.log2_nonneg (len ar)).
  assert (Raq : forall i, reg aq i -> reg s i) by (intros i; apply within_reg; exact Wq).
  assert (Rar : forall i, reg ar i -> reg s i) by (intros i; apply within_reg; exact Wr).
  change (setseen (setseen (setseen g x1) x2) x3) with (setseen g x3).
  assert (Hlive3 : live (setseen g x3)) by exact Hlive.
  assert (Hgo : forall m5 g2, (m5 < m)%nat -> went (reg aq) g a g2 -> maxRec < len ar ->
    sp m5 (Z.to_nat (Z.log2 (len s) + 1)) (fun _ g' => went (reg s) g a g') (Loop ar (fun s => er (longBody kd tn true s))) g2).
  { intros m5 g2 Hm5 (a2 & Em & Eam & Hl2 & HD) Hbig.
    eapply sp_conseq; [apply (IH m5 Hm5 ar) with (a := a2); [lia|exact Wr0|exact Em|exact Hl2| |lia]|lia|].
    { intros i Hr. apply HD; [auto|]. intro Hq. exact (Rdis i Hq Hr). }
    cbv beta. intros _ g3 (a3 & Em3 & Eam3 & Hl3 & HD3).
    exists a3. split; [exact Em3|]. split; [congruence|]. split; [exact Hl3|].
    intros i Hi Hn. apply HD3; [apply HD; auto|auto]. }
  destruct (Z.leb_spec (len aq) maxRec) as [Cc|Cc].
  - eapply sp_bss; [apply (ss_small m4 aq); [lia|exact Wq0]|exact Hlive3| |].
    { destruct Lq as [E|]; [rewrite E; change (Z.log2 0) with 0; lia|lia]. }
    intros _ x4 m5 Hm5 _. change (setseen (setseen g x3) x4) with (setseen g x4).
    destruct (Z.ltb_spec maxRec (len ar)) as [Cr|Cr]; cbn [erase].
    + apply sp_ret. intros m6 Hm6. apply Hgo; [exact Hm6|apply went_seen; assumption|exact Cr].
    + eapply sp_call with (Q1 := fun _ g' => exists x, g' = setseen g x); [lia|exact Hlive| |].
      * intros m6 _. ub. cbn [Typed.body]. eapply sp_ss; [apply ss_short; [lia|exact Wr0]|exact Hlive|lia|].
        intros _ x _. exists x. reflexivity.
      * intros g3 m6 Hm6 [x ->]. apply sp_ret. apply went_seen; assumption.
  - destruct Hloose as [Hidle HPa].
    cbn [erase]. unfold gorFull. eapply sp_bind with (Q1 := fun b g' => exists mg ng, b = (mg <=? ng) /\
      g' = Gst (dom g) (rd g) (val g) (MAct (settok a (ng <? mg))) mg).
    { cbn [erase]. apply sp_loadmax; [exact Hlive|]. intros mg m5 Hm5 Hmg. cbn [erase].
      eapply sp_loadgor; [exact Hmd|apply Hidle|apply Hidle|]. intros ng m6 Hm6. cbn [erase].
      apply sp_ret. exists mg, ng. split; reflexivity. }
    intros full g3 m5 Hm5 (mg & ng & -> & ->). set (a1 := settok a (ng <? mg)).
    assert (Hidle1 : idle a1) by exact Hidle.
    destruct (Z.leb_spec mg ng) as [Cf|Cf]; cbn [erase].
    + eapply sp_call with (Q1 := fun _ g' => went (reg aq) g a g'); [lia|exact I| |].
      * intros m6 Hm6. ub. cbn [Typed.body]. rewrite long_unfold.
        eapply sp_conseq; [apply (IH m6 ltac:(lia) aq) with (a := a1); [lia|exact Wq0|reflexivity|split; [exact Hidle1|exact HPa]| |lia]|lia|].
        { cbn [dom]. intros i Hr. apply Hdom. auto. }
        auto.
      * intros g3 m6 Hm6 Hwent. apply sp_ret. intros m7 Hm7. apply Hgo; [exact Hm7|exact Hwent|lia].
    + eapply sp_addinc; [reflexivity|apply Hidle1| |apply Hidle1| |].
      { cbn. destruct (Z.ltb_spec ng mg); [reflexivity|lia]. }
      { apply (twice_of kd tn HIns HRec aq ar); [lia|lia|intros i Hi; apply Hdom; auto|intros i Hi; apply Hdom; auto|exact Rdis]. }
      intros z m6 Hm6. cbn [erase].
      eapply sp_forkcredit with (d1 := reg ar) (P1 := fun _ => True) (P2 := fun _ => True);
        [reflexivity|reflexivity|apply Hidle1| | | | | | ].
      { intros i Hr. apply Hdom. auto. }
      { apply (many_of kd tn HIns HRec ar); [lia|auto]. }
      { apply (many_of kd tn HIns HRec aq); [lia|]. intros i Hi. split; [apply Hdom; auto|]. intro Hi'. exact (Rdis i Hi Hi'). }
      { intros w _ _. apply HPa. }
      * (* the new goroutine *)
        intros m7 Hm7. ub. cbn [Typed.body]. unfold gLong. cbn [erase].
        eapply sp_call with (Q1 := fun _ g' => exists a2, md g' = MAct a2 /\ a_main a2 = None /\ loose a2); [lia|exact I| |].
        { intros m8 Hm8. ub. cbn [Typed.body]. rewrite long_unfold.
          eapply sp_conseq; [apply (IH m8 ltac:(lia) ar) with (a := Act None (fun _ => True) false false None);
            [lia|exact Wr0|reflexivity|split; [split; reflexivity|intro; exact I]|cbn [dom]; auto|lia]|lia|].
          cbv beta. intros _ g3 (a2 & Em & Ea & Hl & _). exists a2. auto. }
        intros g3 m8 Hm8 (a2 & Em & Ea & Hi & HP).
        eapply sp_adddec; [exact Em|apply Hi|apply Hi|intros w _; apply HP|].
        intros z' m9 Hm9 Hz'. unfold signed_off. rewrite Ea. destruct (Z.eqb_spec z' 0); cbn [erase].
        -- apply sp_sendlast; [reflexivity|]. intros. cbn [erase]. apply sp_ret. reflexivity.
        -- apply sp_ret. reflexivity.
      * (* going on with the shorter range *)
        intros m7 Hm7. cbn [erase]. apply sp_ret. intros m8 Hm8. cbn [setval setseen setmd dom rd val md seen].
        set (a2 := forked (setcredit a1) (fun _ => True)).
        eapply sp_conseq; [apply (IH m8 Hm8 aq) with (a := a2); [lia|exact Wq0|reflexivity|split; [split; [reflexivity|apply Hidle1]|intro; exact I]| |lia]|lia|].
        { cbn. intros i Hr. split; auto. }
        cbv beta. intros _ g3 (a3 & Em3 & Eam3 & Hl3 & HD3).
        exists a3. split; [exact Em3|]. split; [exact Eam3|]. split; [exact Hl3|].
        intros i Hi Hn. apply HD3; [split; [exact Hi|auto]|auto].
Qed.

(** X:263-272, func gLongX started on its own range. *)
Lemma sp_bGLong m s v : maxRec < len s -> within s S0 -> (Z.to_nat (Z.log2 (len s) + 2) <= Dm)%nat ->
  sp m Dm QTS (sbody (PGLong s)) (Gst (reg s) (reg s) v (MAct (Act None (fun _ => True) false false None)) 0).
Proof.
  intros Hs Hw HDm. assert (L0 := Z.log2_nonneg (len s)). ub. cbn [Typed.body]. unfold gLong. cbn [erase].
  eapply sp_call with (Q1 := fun _ g' => exists a2, md g' = MAct a2 /\ a_main a2 = None /\ loose a2); [lia|exact I| |].
  { intros m8 Hm8. ub. cbn [Typed.body]. rewrite long_unfold.
    eapply sp_conseq; [apply (sp_blong m8 s) with (a := Act None (fun _ => True) false false None);
      [lia|exact Hw|reflexivity|split; [split; reflexivity|intro; exact I]|cbn [dom]; auto|lia]|lia|].
    cbv beta. intros _ g3 (a2 & Em & Ea & Hl & _). exists a2. auto. }
  intros g3 m8 Hm8 (a2 & Em & Ea & Hi & HP).
  eapply sp_adddec; [exact Em|apply Hi|apply Hi|intros w _; apply HP|].
  intros z' m9 Hm9 Hz'. unfold signed_off. rewrite Ea. destruct (Z.eqb_spec z' 0); cbn [erase].
  - apply sp_sendlast; [reflexivity|]. intros. cbn [erase]. apply sp_ret. reflexivity.
  - apply sp_ret. reflexivity.
Qed.

(** X:182-214, func partConX. *)
Lemma sp_bPartCon m D s g a : 2 * (maxRec + 1) <= len s -> within s S0 ->
  md g = MAct a -> a_main a <> None -> a_tok a = true -> loose a -> (forall i, reg s i -> dom g i) ->
  sp m D (fun k g' => 0 <= k <= len s /\ exists a', md g' = MAct a' /\ a_main a' = a_main a /\
          a_tok a' = true /\ loose a' /\ forall i, dom g i -> dom g' i)
    (er (partCon kd meanI s)) g.
Proof.
  intros Htw Hw Hmd Hmain Htok [Hidle HPa] Hdom. assert (Hs : 24 <= len s) by lia.
  assert (Hbs : len s < 2 * wq) by (unfold within in Hw; lia).
  assert (Hlive : live g) by (unfold live; rewrite Hmd; exact I).
  unfold partCon. eapply (sp_bss m O); [apply (ss_pivot m O s nsConc); [left; reflexivity|unfold nsConc; lia|exact Hw]|exact Hlive|lia|].
  intros pv x1 m1 Hm1 _.
  set (mid := Z.shiftr (len s) 1). set (l := Z.shiftr mid 1). set (h := meanI mid (len s)).
  cbv zeta.
  assert (Hmid : 12 <= mid /\ 2 * mid <= len s <= 2 * mid + 1).
  { unfold mid. rewrite shiftr1. destruct (half (len s)) as (y & E & Hy). rewrite E. lia. }
  assert (Hl : 6 <= l /\ 2 * l <= mid <= 2 * l + 1).
  { unfold l. rewrite shiftr1. destruct (half mid) as (y & E & Hy). rewrite E. lia. }
  assert (Hh : mid <= h < len s) by (unfold h; apply HmeanI; lia).
  clearbody mid l h.
  set (pl := Slice (off s + l) (h - l)). assert (Wpl : within pl S0) by (unfold within, pl in *; cbn [off len]; lia).
  assert (Hlp : len pl = h - l) by reflexivity.
  eapply (sp_bss m1 O _ (fun x => x = pl)); [|exact Hlive|lia|].
  { unfold reslice. replace ((0 <=? l) && (l <=? h) && (h <=? len s)) with true by lia. apply ss_ret. reflexivity. }
  intros x x2 m2 Hm2 ->. change (setseen (setseen g x1) x2) with (setseen g x2). cbn [erase].
  eapply sp_forkpart with (dj := fun _ => False) (d2 := fun _ => False) (r2 := fun _ => False)
    (post := fun k _ => 0 <= k <= h - l);
    [exact Hmd|exact Hmain|apply Hidle|exact Htok|apply Hidle|tauto|tauto|tauto| |tauto| | ].
  { apply (twice_one kd tn HIns HRec s); [exact Htw|exact Hdom]. }
  { (* the partner *)
    intros m3 Hm3. ub. cbn [Typed.body]. unfold gPartOne.
    eapply (sp_bss m3 O); [apply (ss_partOne m3 O pl pv); [lia|exact Wpl]|exact I|lia|].
    intros k x3 m4 Hm4 Hk. cbn [erase]. rewrite Hlp in Hk.
    eapply sp_sendpart; [reflexivity| |intros; cbn [erase]; apply sp_ret; reflexivity].
    intros w _. exact Hk. }
  intros m3 Hm3. cbn [setseen dom rd val md seen].
  replace (partTwo kd s l h pv) with (partTwo kd s (l - 1 + 1) h pv) by (f_equal; lia).
  eapply sp_bind with (Q1 := fun r g' => (0 <= r <= l - 1 \/ h <= r <= len s) /\ exists x, g' = setseen _ x).
  { eapply (sp_ss m3 O); [apply (ss_partTwo m3 O s pv (l - 1) h); [exact Hw|lia|lia|lia|lia]|exact I|lia|].
    intros r x3 Hr. split; [exact Hr|]. exists x3. reflexivity. }
  intros r g3 m4 Hm4 (Hr & x3 & ->). cbn [erase].
  eapply sp_recvjoin; [reflexivity|reflexivity|].
  cbn [setseen setjoin dom rd val md seen j_post j_D]. intros km w m5 Hm5 _ Hkm.
  set (g4 := Gst _ _ _ _ _).
  assert (Hg4 : forall k y, 0 <= k <= len s -> 0 <= k <= len s /\
     exists a', md (setseen g4 y) = MAct a' /\ a_main a' = a_main a /\
          a_tok a' = true /\ loose a' /\ forall i, dom g i -> dom (setseen g4 y) i).
  { intros k y Hk. split; [exact Hk|]. exists (setjoin a None). split; [reflexivity|]. split; [reflexivity|].
    split; [exact Htok|]. split; [split; [split; [apply Hidle|reflexivity]|exact HPa]|].
    cbn. unfold union, minus. intros i Hi. left. tauto. }
  destruct (Z.ltb_spec r mid) as [C|C].
  - eapply (sp_ss m5 O); [apply (ss_gapLow m5 O s pv r (l + km)); [exact Hw|lia|lia|lia]|exact I|lia|]. intros k y Hk. apply Hg4. exact Hk.
  - eapply (sp_ss m5 O); [apply (ss_gapHigh m5 O s pv r (l + km)); [exact Hw|lia|lia|lia]|exact I|lia|]. intros k y Hk. apply Hg4. exact Hk.
Qed.

(** ** The concurrent part of sortX *)

Definition bInv (ar : slice) (g : gst unit) (a : act unit) : Prop :=
  md g = MAct a /\ a_main a = Some (fun _ => True) /\ loose a /\ (forall i, reg ar i -> dom g i) /\
  maxRec < len ar /\ within ar S0.

Lemma sp_bMainLoop : forall m s g a, 2 * (maxRec + 1) <= len s -> bInv s g a -> a_tok a = true ->
  (Z.to_nat (Z.log2 (len s) + 2) <= Dm)%nat ->
  sp m (Z.to_nat (Z.log2 (len s) + 2)) (fun ar g' => len ar <= len s /\ exists a', bInv ar g' a')
    (er (Loop s (mainBody kd tn meanI))) g.
Proof.
  intro m. induction m as [m IH] using lt_wf_ind. intros s g a Hs Hinv Htok HDm.
  destruct Hinv as (Hmd & Hmain & Hloose & Hdom & Hlen & Hw).
  cbn [erase]. apply sp_loop_step. intros m1 Hm1. unfold mainBody at 1. cbn [erase].
  eapply sp_bind; [apply (sp_bPartCon m1 _ s g a); [lia|exact Hw|exact Hmd|congruence|exact Htok|exact Hloose|exact Hdom]|].
  cbv beta. intros k g1 m2 Hm2 (Hk & a1 & Hmd1 & Hmain1 & Htok1 & Hloose1 & Hd1).
  assert (Hlive1 : live g1) by (unfold live; rewrite Hmd1; exact I).
  eapply (sp_bss m2 O _ (fun '(aq, ar) => isSplit s k aq ar)); [apply ss_split; exact Hk|exact Hlive1|lia|].
  intros [aq ar] x3 m3 Hm3 Hsp.
  destruct (isSplit_any s k aq ar Hk Hsp) as (Wq & Wr & Rdis & Hq0 & Hsum & Hle & Hoff).
  assert (Wq0 := within_trans _ _ _ Wq Hw). assert (Wr0 := within_trans _ _ _ Wr Hw).
  assert (Lq : len aq = 0 \/ Z.log2 (len aq) + 1 <= Z.log2 (len s)).
  { destruct (Z.eq_dec (len aq) 0); [left; assumption|right; apply log2_half; lia]. }
  assert (Lr : Z.log2 (len ar) <= Z.log2 (len s)) by (apply Z.log2_le_mono; lia).
  assert (Ls := Z.log2_nonneg (len s)). assert (Lq0 := Z.log2_nonneg (len aq)).
  assert (Lr0 := Z.log2_nonneg (len ar)).
  assert (Raq : forall i, reg aq i -> reg s i) by (intros i; apply within_reg; exact Wq).
  assert (Rar : forall i, reg ar i -> reg s i) by (intros i; apply within_reg; exact Wr).
  assert (Hbig : maxRec < len ar) by lia.
  assert (Hgo : forall m4 g2 a2, (m4 < m)%nat -> bInv ar g2 a2 ->
    sp m4 (Z.to_nat (Z.log2 (len s) + 2))
      (fun r g' => match r with
         | inl s' => forall m'', (m'' < m)%nat -> sp m'' (Z.to_nat (Z.log2 (len s) + 2))
             (fun ar g' => len ar <= len s /\ exists a', bInv ar g' a')
             (Loop s' (fun s => er (mainBody kd tn meanI s))) g'
         | inr ar => len ar <= len s /\ exists a', bInv ar g' a'
         end)
      (er (if len ar <? minConc kd tn then Ret (inr ar)
       else Bind gorFull (fun full : bool => if full then Ret (inr ar) else Ret (inl ar)))) g2).
  { intros m4 g2 a2 Hm4 Hi2.
    rewrite (minConc_plain kd tn HIns HRec HRec2). destruct (Z.ltb_spec (len ar) (2 * (maxRec + 1))) as [Cs|Cs].
    { cbn [erase]. apply sp_ret. split; [lia|]. exists a2; exact Hi2. }
    assert (Hi2' := Hi2). destruct Hi2' as (Hmd2 & Hmain2 & Hloose2 & Hdom2 & Hlen2 & Hw2).
    cbn [erase]. unfold gorFull. eapply sp_bind with (Q1 := fun b g' => exists mg ng, b = (mg <=? ng) /\
      g' = setmd (setseen g2 mg) (MAct (settok a2 (ng <? mg)))).
    { cbn [erase]. apply sp_loadmax; [unfold live; rewrite Hmd2; exact I|]. intros mg m5 Hm5 Hmg. cbn [erase].
      eapply sp_loadgor; [exact Hmd2|apply Hloose2|apply Hloose2|]. intros ng m6 Hm6. cbn [erase].
      apply sp_ret. exists mg, ng. split; reflexivity. }
    intros full g3 m5 Hm5 (mg & ng & -> & ->).
    set (a3 := settok a2 (ng <? mg)).
    set (g3 := setmd (setseen g2 mg) (MAct a3)).
    assert (Hi3 : bInv ar g3 a3).
    { split; [reflexivity|]. split; [exact Hmain2|]. split; [exact Hloose2|]. split; [exact Hdom2|]. split; [exact Hlen2|exact Hw2]. }
    destruct (Z.leb_spec mg ng) as [Cf|Cf]; cbn [erase]; apply sp_ret.
    - split; [lia|]. exists a3; exact Hi3.
    - intros m6 Hm6. eapply sp_conseq; [apply (IH m6 Hm6 ar) with (a := a3); [lia|exact Hi3| |lia]|lia|].
      + cbn. destruct (Z.ltb_spec ng mg); [reflexivity|lia].
      + cbv beta. intros ar' g' (Hl & Ha). split; [lia|exact Ha]. }
  destruct (Z.ltb_spec maxRec (len aq)) as [Cc|Cc].
  - (* a goroutine for the shorter range *)
    cbn [erase]. eapply sp_bind with (Q1 := fun _ g' => bInv ar g' (forked (setcredit a1) (fun _ => True))).
    { cbn [erase]. eapply sp_addinc; [exact Hmd1|apply Hloose1|exact Htok1|apply Hloose1| |].
      { apply (twice_of kd tn HIns HRec aq ar); [lia|lia|intros i Hi; apply Hd1, Hdom; auto|intros i Hi; apply Hd1, Hdom; auto|exact Rdis]. }
      intros z m4 Hm4. cbn [erase]. eapply sp_forkcredit with (d1 := reg aq) (P1 := fun _ => True) (P2 := fun _ => True);
          [reflexivity|reflexivity|apply Hloose1| | | | | | ].
      { intros i Hr. apply Hd1, Hdom. auto. }
      { apply (many_of kd tn HIns HRec aq); [lia|auto]. }
      { apply (many_of kd tn HIns HRec ar); [lia|]. intros i Hi. split; [apply Hd1, Hdom; auto|]. intro Ha. exact (Rdis i Ha Hi). }
      { intros w _ _. apply Hloose1. }
      + intros m5 Hm5. apply sp_bGLong; [exact Cc|exact Wq0|lia].
      + intros m5 Hm5. cbn [erase]. apply sp_ret.
        split; [reflexivity|]. split; [exact (eq_trans Hmain1 Hmain)|].
        split; [split; [split; [reflexivity|apply Hloose1]|intro; exact I]|].
        cbn [dom]. split; [|split; [exact Hbig|exact Wr0]].
        intros i Hr. split; [apply Hd1, Hdom; auto|]. intro Hi. exact (Rdis i Hi Hr). }
    intros _ g2 m4 Hm4 Hi2. eapply Hgo; [lia|exact Hi2].
  - eapply sp_bss; [apply (ss_small m3 aq); [lia|exact Wq0]|exact Hlive1| |].
    { destruct Lq as [E|]; [rewrite E; change (Z.log2 0) with 0; lia|lia]. }
    intros _ x4 m4 Hm4 _. apply (Hgo _ _ a1); [lia|].
    split; [exact Hmd1|]. split; [exact (eq_trans Hmain1 Hmain)|]. split; [exact Hloose1|].
    split; [intros i Hr; apply Hd1, Hdom; auto|]. split; [exact Hbig|exact Wr0].
Qed.

Lemma sp_bSortConc m (X : cells) s v (sn : Z) : (forall i, reg s i -> X i) -> within s S0 ->
  2 * (maxRec + 1) <= len s -> 1 < sn ->
  (Z.to_nat (Z.log2 (len s) + 2) <= Dm)%nat ->
  sp m (Z.to_nat (Z.log2 (len s) + 2)) (QMS (fun _ _ => True)) (er (sortConc kd tn meanI s)) (Gst X X v MInit sn).
Proof.
  intros HX Hw Hs Hsn HDm. rewrite sortConc_unfold. cbn [erase]. assert (L0 := Z.log2_nonneg (len s)).
  apply (sp_makesv sbody Dm m _ _ _ _ (fun _ => True)); [reflexivity|exact Hsn| |].
  { apply (many_of kd tn HIns HRec s); [lia|exact HX]. }
  intros m1 Hm1. set (a0 := Act (T := unit) (Some (fun _ => True)) (fun _ => True) false true None).
  cbn [erase]. eapply sp_bind; [apply (sp_bMainLoop m1 s) with (a := a0); [exact Hs| |reflexivity|exact HDm]|].
  { split; [reflexivity|]. split; [reflexivity|]. split; [split; [split; reflexivity|intro; exact I]|].
    split; [exact HX|]. split; [lia|exact Hw]. }
  cbv beta. intros ar g1 m2 Hm2 (Hl1 & (a1 & Hinv)).
  destruct Hinv as (Hmd & Hmain & Hloose & Hdom & Hlen & Hw1).
  assert (L2 := Z.log2_nonneg (len ar)).
  assert (L3 : Z.log2 (len ar) <= Z.log2 (len s)) by (apply Z.log2_le_mono; lia).
  cbn [erase]. eapply sp_call with (Q1 := fun _ g' => went (reg ar) g1 a1 g'); [lia|unfold live; rewrite Hmd; exact I| |].
  { intros m3 _. ub. cbn [Typed.body]. rewrite long_unfold.
    eapply sp_conseq; [apply (sp_blong m3 ar g1 a1); [lia|exact Hw1|exact Hmd|exact Hloose|exact Hdom|lia]|lia|auto]. }
  intros g2 m3 Hm3 (a2 & Em & Ea & [Hi HP] & HD).
  eapply sp_adddec; [exact Em|apply Hi|apply Hi|intros w _; apply HP|].
  intros z m4 Hm4 Hz. unfold signed_off. rewrite Ea, Hmain. destruct (Z.eqb_spec z 0); cbn [erase].
  - apply sp_ret. cbn. auto.
  - eapply sp_recvwait; [reflexivity|]. intros _ m5 Hm5. apply sp_ret. cbn. auto.
Qed.

(** X:319-375, func sortX, started by its caller. *)
Lemma sp_bSort m (X : cells) s v sn0 md0 : (forall i, reg s i -> X i) -> within s S0 -> 0 <= len s ->
  md0 = MInit \/ (md0 = MSeq /\ len s < 2 * (maxRec + 1)) ->
  (Z.to_nat (Z.log2 (len s) + 2) <= Dm)%nat ->
  sp m (Z.to_nat (Z.log2 (len s) + 2)) (QMS (fun _ _ => True)) (er (sort kd tn meanI s)) (Gst X X v md0 sn0).
Proof.
  intros HX Hw H0 Hmd HDm. unfold sort.
  assert (Hlive : forall sn, live (Gst X X v md0 sn)) by (intro sn; unfold live; cbn [md]; destruct Hmd as [->|[-> _]]; exact I).
  assert (HQ : forall sn (u : unit), QMS (fun _ _ => True) u (Gst X X v md0 sn)).
  { intros sn u. unfold QMS, QM. cbn [md]. destruct Hmd as [->|[-> _]]; auto. }
  assert (L0 := Z.log2_nonneg (len s)).
  assert (Hseq : forall sn m, sp m (Z.to_nat (Z.log2 (len s) + 2)) (QMS (fun _ _ => True))
      (er (if maxRec <? len s then Call (PLong s false) (Ret tt)
       else if maxIns <? len s then Call (PShort s) (Ret tt) else insertion (ltT kd) s))
      (Gst X X v md0 sn)).
  { intros sn m'. destruct (Z.ltb_spec maxRec (len s)) as [C|C].
    - eapply (sp_ss m' (Z.to_nat (Z.log2 (len s) + 2)) _ (fun _ => True)); [|apply Hlive|lia|intros; apply HQ].
      apply (ss_call _ _ (fun _ => True)); [lia| |intros; apply ss_ret; exact I].
      intros m2 _. cbn [Typed.body]. eapply ss_conseq; [apply ss_long; assumption|lia|auto].
    - eapply sp_ss; [apply (ss_small m' s H0 Hw)|apply Hlive|lia|intros; apply HQ]. }
  cbn [erase]. eapply sp_bind with (Q1 := fun b g' => exists sn, g' = Gst X X v md0 sn /\
    (b = false -> 1 < sn /\ 2 * (maxRec + 1) <= len s)).
  - rewrite (minConc_plain kd tn HIns HRec HRec2). destruct (Z.ltb_spec (len s) (2 * (maxRec + 1))) as [C|C]; cbn [erase].
    + apply sp_ret. exists sn0. split; [reflexivity|discriminate].
    + apply sp_loadmax; [apply Hlive|]. intros mg m1 Hm1 Hmg. cbn [erase].
      apply sp_ret. exists mg. split; [reflexivity|]. intro E. apply Z.leb_gt in E. lia.
  - intros [|] g' m1 Hm1 (sn & -> & Hsn); [apply Hseq|].
    destruct (Hsn eq_refl) as [Hsn1 Hsn2]. destruct Hmd as [->|[_ Hmd]]; [|lia].
    apply sp_bSortConc; assumption.
Qed.

End Blind.
