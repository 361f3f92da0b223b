(** * SortSlice and SortLen on elements that others change meanwhile *)

From Coq Require Import List ZArith Lia Bool.
From Verif Require Import Lang SeqLogic ConcLogic Soundness Adequacy SafeLogic Trace HappensBefore SafeAdequacy Base Scalar Typed SeqOps TypedShort
  ScalarFacts TypedLong TypedSort AnySort Kinds Spec KindsFacts TypedApi Lsw Calls Guarantee Erase Oracle BlindTyped.
Import ListNotations.
Open Scope Z_scope.
Local Arguments Z.mul : simpl never.
Local Arguments Z.add : simpl never.
Local Arguments Z.sub : simpl never.
Local Arguments Z.pow : simpl never.

(** ** More about executions of programs that need not end *)

Section More.
Context {Gr : grain}.
Context {P T R : Type}.
Variable body : P -> cmd P T unit.
Variables (Dm D : nat) (M : Z) (R0 : cells) (Post : R -> (Z -> T) -> Prop).
Hypothesis R0fin : exists l, (forall i, R0 i -> In i l) /\ Z.of_nat (length l) < two64.
Variables (c0 : cmd P T R) (m0 : Z -> T) (mg0 : Z) (md0 : mode T).
Hypothesis Hmg : 0 <= mg0 <= M.
Hypothesis Hmd0 : md0 = MSeq \/ md0 = MInit.
Hypothesis HW0 : forall m, sp body Dm m D (QMS Post) c0 (Gst R0 R0 m0 md0 0).
Notation inv k s H := (xreach_inv body Dm D M R0 Post R0fin c0 m0 mg0 md0 Hmg Hmd0 HW0 k s H).

(** Reads MaxGor next (in erased programs: accesses an element, or reads MaxGor). *)
Definition loads {A} (c : cmd P T A) : Prop := exists k, view c = HLoadMax k.

Lemma loads_live {A} mm D' (Q : A -> gst T -> Prop) c g : sp body Dm (S mm) D' Q c g -> loads c -> live g.
Proof. intros [_ HW] (k & Hk). rewrite Hk in HW. apply HW. Qed.

(** [i] is the number of the goroutine, 0 the caller. *)
Definition loadsAt (s : st P T R) (i : nat) : Prop :=
  match i with O => loads (main s) | S i => exists c, nth_error (thr s) i = Some c /\ loads c end.

Lemma sad_still k s r : exec body M R0 k (start c0 m0 mg0) s -> returned s r -> forall i, ~ loadsAt s i.
Proof.
  intros H Hr i Hin. destruct (inv k s H) as (tr & HI).
  destruct (HI 1%nat) as (gm & pool & deps & HW & HP & Ht & HG & _).
  pose proof (gg_phase _ _ _ _ _ _ HG) as Hph. unfold Soundness.phase in Hph.
  unfold returned in Hr. destruct i as [|i]; [destruct Hin as (k' & Hk'); rewrite Hr in Hk'; discriminate|].
  destruct HW as [_ HW]. rewrite Hr in HW. unfold QMS, QM in HW.
  destruct Hin as (c & Hc & Hl). rewrite Ht, nth_error_map in Hc. destruct (nth_error pool i) as [e|] eqn:Ee; [|discriminate].
  apply nth_error_In in Ee. injection Hc as <-.
  assert (Hp : md (snd e) = MDone).
  { destruct (md gm) eqn:Em; try contradiction.
    - destruct Hph as (Hp & _). destruct pool; [destruct Ee|discriminate].
    - destruct Hph as (Hp & _). destruct pool; [destruct Ee|discriminate].
    - destruct Hph as (Hp & _). rewrite Forall_forall in Hp. apply Hp. apply in_map. exact Ee. }
  rewrite Forall_forall in HP. assert (Hv := loads_live _ _ _ _ _ (HP e Ee) Hl).
  unfold live in Hv. rewrite Hp in Hv. exact Hv.
Qed.

Lemma sad_crowd k s idx L : exec body M R0 k (start c0 m0 mg0) s -> (forall i, R0 i -> In i L) ->
  NoDup idx -> (forall i, In i idx -> loadsAt s i) ->
  Z.of_nat (length idx) <= 1 \/ (Z.of_nat gr + 1) * Z.of_nat (length idx) <= Z.of_nat (length L).
Proof.
  intros H HL Hnd Hw. destruct (inv k s H) as (tr & HI).
  destruct (HI 1%nat) as (gm & pool & deps & HW & HP & Ht & HG & _).
  rewrite Forall_forall in HP.
  assert (LB : forall g : gst T, live g -> 1 <= Adequacy.busy g) by (intro g; unfold live, Adequacy.busy; destruct (md g); auto; lia).
  assert (B1 : Z.of_nat (length idx) <= sumf Adequacy.busy (gm :: map snd pool)).
  { apply count_le; auto.
    - intro g. unfold Adequacy.busy. destruct (md g); lia.
    - intros i Hin. specialize (Hw i Hin). destruct i as [|i]; cbn [nth_error map loadsAt] in Hw |- *.
      + exists gm. split; [reflexivity|]. apply LB. eapply loads_live; [exact HW|exact Hw].
      + destruct Hw as (c & Hc & Hl). rewrite Ht, nth_error_map in Hc.
        destruct (nth_error pool i) as [e|] eqn:Ee; [|discriminate]. injection Hc as <-.
        exists (snd e). rewrite nth_error_map, Ee. split; [reflexivity|]. apply LB.
        eapply loads_live; [exact (HP e (nth_error_In _ _ Ee))|exact Hl]. }
  destruct (busy_share _ _ _ _ _ _ _ L HG HL); [left|right]; nia.
Qed.

(** No goroutine is started in the sequential mode. *)
Definition alone (c : cmd P T R) (w : shared T) : Prop :=
  chans w = 0 /\ 0 <= maxg w <= M /\ forall mm, exists g, sp body Dm mm D (QMS Post) c g /\ md g = MSeq /\
    (forall i, rd g i -> R0 i) /\ (forall i, rd g i -> val g i = mem w i).

Lemma alone_step c w c' w' fs : alone c w -> exec_local body c w = Some (c', w', fs) -> fs = [] /\ alone c' w'.
Proof.
  intros (Hc & Hx & HI) He. unfold exec_local in He.
  destruct (HI 1%nat) as (g1 & [_ HV] & Eg & _).
  destruct (view c) eqn:Hv; try discriminate He; try contradiction.
  - injection He as <- <- <-. split; [reflexivity|]. split; [exact Hc|]. split; [exact Hx|]. intro mm.
    destruct (HI (S mm)) as (g & [_ HW] & HR). rewrite Hv in HW. exists g. split; [exact HW|exact HR].
  - injection He as <- <- <-. split; [reflexivity|]. split; [exact Hc|]. split; [exact Hx|]. intro mm.
    destruct (HI (S mm)) as (g & [_ HW] & Em & H1 & H2). rewrite Hv in HW. destruct HW as (_ & Hr & HW).
    exists g. rewrite <- (H2 _ Hr). auto.
  - injection He as <- <- <-. split; [reflexivity|]. split; [exact Hc|]. split; [exact Hx|]. intro mm.
    destruct (HI (S mm)) as (g & [_ HW] & Em & H1 & H2). rewrite Hv in HW. destruct HW as (_ & Hr & HW).
    exists (setval g (upd (val g) i v)). split; [exact HW|]. split; [exact Em|]. split; [exact H1|].
    cbn. intros j Hj. unfold upd. destruct (j =? i); [reflexivity|auto].
  - injection He as <- <- <-. split; [reflexivity|]. split; [exact Hc|]. split; [exact Hx|]. intro mm.
    destruct (HI (S mm)) as (g & [_ HW] & HR). rewrite Hv in HW. exists g. split; [apply HW|exact HR].
  - exfalso. destruct HV as [(a & ? & ? & ? & E & _)|(a & ? & ? & ? & ? & E & _)]; congruence.
  - injection He as <- <- <-. split; [reflexivity|]. split; [exact Hc|]. split; [exact Hx|]. intro mm.
    destruct (HI (S mm)) as (g & [_ HW] & Em & H1 & H2). rewrite Hv in HW. exists (setseen g (maxg w)).
    split; [apply HW; lia|]. split; [exact Em|]. split; [exact H1|exact H2].
  - exfalso. destruct HV as (a & E & _). congruence.
  - exfalso. destruct HV as [(_ & a & E & _)|(_ & a & E & _)]; congruence.
  - exfalso. destruct HV as (a & E & _). congruence.
Qed.

Lemma sad_alone k s : md0 = MSeq -> exec body M R0 k (start c0 m0 mg0) s -> thr s = [] /\ chans (sh s) = 0.
Proof.
  intros Hm H.
  assert (G : thr s = [] /\ alone (main s) (sh s)).
  { remember (start c0 m0 mg0) as s0 eqn:E. induction H as [s|n s sa sb H IH Hp|n s sa sb H IH He]; subst s.
    - split; [reflexivity|]. split; [reflexivity|]. split; [exact Hmg|]. intro mm. exists (Gst R0 R0 m0 md0 0).
      split; [apply HW0|]. cbn. auto.
    - destruct (IH eq_refl) as (Ht & HA). clear IH.
      destruct Hp as [s1 s2 Hp|m ts s k0 z Hvs|m l1 c l2 s k0 z Hvs]; [destruct Hp|..]; cbn [thr main sh] in Ht, HA |- *;
        try (exfalso; destruct l1; discriminate Ht).
      + subst ts. destruct (alone_step _ _ _ _ _ HA H0) as [-> HA']. split; [reflexivity|exact HA'].
      + exfalso. destruct HA as (_ & _ & HI). destruct (HI 1%nat) as (g & [_ HV] & Em & _). rewrite Hvs in HV.
        destruct HV as (a & E & _). congruence.
    - destruct (IH eq_refl) as (Ht & Hc & _ & HI). destruct He as [m ts w mem' mg' H1 H2]. cbn [thr main sh] in *.
      split; [exact Ht|]. split; [exact Hc|]. split; [exact H1|]. intro mm. destruct (HI mm) as (g & HW & Em & H3 & H4).
      exists g. split; [exact HW|]. split; [exact Em|]. split; [exact H3|]. cbn. intros i Hi. rewrite H2 by auto. auto. }
  destruct G as (H1 & H2 & _). split; assumption.
Qed.

End More.

(** An access shows in the erased program. *)
Lemma er_loads {P T A} f inb (c : cmd P T A) c' x w : er f inb c c' -> access c = Some (x, w) -> inb x = true -> loads c'.
Proof.
  intros H E Hx. apply view_er in H. unfold access in E. destruct (view c); cbn [hrel] in H; try discriminate;
    injection E as <- <-; destruct H as [(_ & k' & E' & _)|(E' & _)]; try congruence; exists k'; exact E'.
Qed.

Section Any.
Variables (pl : plat) (tn : tuning).
Hypothesis Hpl : platOk pl.
Hypothesis Htn : tuningOk pl tn.
Local Existing Instance pword.
Variables (opt : Z) (e : ety) (s0 : slice).
Hypothesis Hs0 : goSlice pl s0.
Variable m0 : Z -> elem e.

Notation C := (typedCall pl tn opt e s0 m0).
Notation kd := (kindOf pl e).
Notation body := (procs pl tn e).
Notation prog := (sortProg pl tn opt e s0).
Notation R0 := (reg s0).
Notation inb := (inside s0).
Notation eb f := (fun p => erase f inb (body p)).
Notation Dp := (Z.to_nat (Z.log2 (len s0) + 2)).
Notation G := (typedGrain kd tn).
Notation mrec := (TypedShort.maxRec kd tn).

Lemma blind_sp f md0 m : md0 = MInit \/ (md0 = MSeq /\ len s0 < 2 * (mrec + 1)) ->
  sp (Gr := G) (eb f) Dp m Dp (QMS (fun (_ : unit) _ => True)) (erase f inb prog) (Gst R0 R0 (fun _ => tt) md0 0).
Proof.
  intro Hmd. destruct Hs0 as [H0 Hb]. rewrite (intSize_eq pl) in Hb.
  assert (T1 := tuning_ins kd tn Htn). assert (T2 := tuning_rec kd tn Htn). assert (T3 := tuning_rec2 kd tn Htn).
  assert (K : forall m s x, AnySort.within s s0 -> 0 <= len s ->
    sp (Gr := G) (eb f) Dp m Dp (QMS (fun (_ : unit) _ => True)) (erase f inb (sort kd tn (mI pl) s)) (Gst R0 R0 (fun _ => tt) md0 x)).
  { intros m' s x Hw Hl. assert (L : Z.log2 (len s) <= Z.log2 (len s0)) by (apply Z.log2_le_mono; unfold AnySort.within in Hw; lia).
    assert (L0 := Z.log2_nonneg (len s)).
    eapply sp_conseq; [apply (sp_bSort kd tn (mI pl) (meanOk_of pl Hpl) T1 T2 T3 f s0 Hb Dp m' R0 s (fun _ => tt) x md0)|lia|auto].
    - intros i. apply within_reg. exact Hw.
    - exact Hw.
    - exact Hl.
    - destruct Hmd as [->|[-> Hmd]]; [left; reflexivity|right; split; [reflexivity|unfold AnySort.within in Hw; lia]].
    - lia. }
  unfold sortProg, sortLive. destruct (isFloat e); [|apply K; [apply within_refl|lia]].
  eapply (sp_bss kd tn f s0 Dp m O _ (fun s' => AnySort.within s' s0 /\ 0 <= len s')).
  - apply ss_prepass; [lia|apply within_refl].
  - unfold live. cbn [md]. destruct Hmd as [->|[-> _]]; exact I.
  - lia.
  - intros s' x m' Hm [Hw Hl]. apply K; assumption.
Qed.

Lemma tcells_finite : exists l, (forall i, R0 i -> In i l) /\ Z.of_nat (length l) < two64.
Proof. apply (slice_finite pl (off s0) (len s0) Hpl Hs0). Qed.

Section Run.
Variables (M : Z) (mg0 : Z).
Hypothesis Hmg : 0 <= mg0 <= M.
Notation runs := (exec body M (fun _ => False)).

(** The erased execution behind an execution. *)
Lemma t_behind k s : runs k (start prog m0 mg0) s ->
  exists f M' s', M <= M' /\ exec (eb f) M' R0 k (start (erase f inb prog) (fun _ => tt) mg0) s' /\ srel f inb s s'.
Proof.
  intro H. destruct (simulation inb body M k _ s H Hmg) as (_ & L & HL).
  set (f := pick (m0 0) L). set (M' := Z.max M (Z.of_nat (length L))).
  exists f, M'. destruct (HL f M' (start (erase f inb prog) (fun _ => tt) mg0)) with (Rg := R0) as (s' & He & Hs).
  - unfold M'. lia.
  - intros x Hx. destruct (pick_all (m0 0) L x Hx) as (z & Hz & E). exists z. split; [unfold M'; lia|exact E].
  - split; [apply er_erase|]. split; [constructor|]. cbn. auto.
  - intros k' s' He'. refine (sad_no_panic _ _ _ M' R0 _ tcells_finite _ _ mg0 MInit _ (or_intror eq_refl) (fun m => blind_sp f MInit m (or_introl eq_refl)) k' s' He').
    unfold M'. lia.
  - exists s'. split; [unfold M'; lia|]. split; assumption.
Qed.

Ltac beh H := let f := fresh "f" in let M' := fresh "M'" in let s' := fresh "s'" in
  destruct (t_behind _ _ H) as (f & M' & s' & HM' & He & Hm & Ht & Hg & Hc);
  assert (Hmg' : 0 <= mg0 <= M') by lia;
  assert (HW := fun m => blind_sp f MInit m (or_introl eq_refl)).

Lemma t_no_panic k s : runs k (start prog m0 mg0) s -> ~ panicked s.
Proof.
  intros H Hp. beh H.
  apply (sad_no_panic _ _ _ M' R0 _ tcells_finite _ _ mg0 MInit Hmg' (or_intror eq_refl) HW k s' He).
  destruct Hp as [Hp|(c & Hin & Hp)].
  - left. apply view_er in Hm. rewrite Hp in Hm. exact Hm.
  - right. destruct (Forall2_In_l _ _ _ _ Ht Hin) as (c' & Hin' & Hr). exists c'. split; [exact Hin'|].
    apply view_er in Hr. rewrite Hp in Hr. exact Hr.
Qed.

Lemma t_in_bounds k s x w : runs k (start prog m0 mg0) s -> In (Some (x, w)) (accesses s) -> R0 x.
Proof.
  intros H Hx. beh H.
  assert (Hp := sad_no_panic _ _ _ M' R0 _ tcells_finite _ _ mg0 MInit Hmg' (or_intror eq_refl) HW k s' He).
  destruct (inb x) eqn:E; [unfold inside, reg in *; lia|]. exfalso. apply Hp.
  unfold accesses in Hx. destruct Hx as [Hx|Hx].
  - left. eapply er_access; eassumption.
  - right. apply in_map_iff in Hx. destruct Hx as (c & Hx & Hin).
    destruct (Forall2_In_l _ _ _ _ Ht Hin) as (c' & Hin' & Hr). exists c'. split; [exact Hin'|].
    eapply er_access; eassumption.
Qed.

Lemma t_depth k s : runs k (start prog m0 mg0) s ->
  (depth (main s) <= Dp)%nat /\ forall c, In c (thr s) -> (depth c <= Dp)%nat.
Proof.
  intros H. beh H.
  destruct (sad_depth _ _ _ M' R0 _ tcells_finite _ _ mg0 MInit Hmg' (or_intror eq_refl) HW k s' He) as [H1 H2].
  split; [apply er_depth in Hm; lia|]. intros c Hin.
  destruct (Forall2_In_l _ _ _ _ Ht Hin) as (c' & Hin' & Hr). apply er_depth in Hr. specialize (H2 c' Hin'). lia.
Qed.

Lemma t_chans k s : runs k (start prog m0 mg0) s -> 0 <= chans (sh s) <= 1.
Proof.
  intros H. beh H. destruct Hc as [_ Hc]. rewrite <- Hc.
  exact (sad_chans _ _ _ M' R0 _ tcells_finite _ _ mg0 MInit Hmg' (or_intror eq_refl) HW k s' He).
Qed.

Lemma t_progress k s : runs k (start prog m0 mg0) s -> returned s tt \/ exists s1, pstep body s s1.
Proof.
  intros H. beh H.
  destruct (sad_progress _ _ _ M' R0 _ tcells_finite _ _ mg0 MInit Hmg' (or_intror eq_refl) HW k s' He) as [[[] Hr]|[s1 Hs]].
  - left. apply (er_ret_inv _ _ _ _ _ Hm). exact Hr.
  - right. eapply (srel_step f inb body (eb f)); [|exact Hs]. split; [exact Hm|]. split; [exact Ht|]. split; [exact Hg|exact Hc].
Qed.

Lemma t_shows f (s : st (cP C) (elem e) unit) (s' : st (cP C) unit unit) i x w : er f inb (main s) (main s') -> Forall2 (er f inb) (thr s) (thr s') -> R0 x ->
  nth_error (accesses s) i = Some (Some (x, w)) -> loadsAt s' i.
Proof.
  intros Hm Ht Hx Ha. assert (E : inb x = true) by (unfold inside, reg in *; lia).
  unfold accesses in Ha. destruct i as [|i]; cbn [nth_error] in Ha.
  - injection Ha as Ha. cbn. eapply er_loads; eassumption.
  - rewrite nth_error_map in Ha. destruct (nth_error (thr s) i) as [c|] eqn:Ec; [|discriminate]. injection Ha as Ha.
    destruct (Forall2_nth_l _ _ _ Ht _ _ Ec) as (c' & Hc' & Hr). exists c'. split; [exact Hc'|]. eapply er_loads; eassumption.
Qed.

Lemma t_quiet k s : runs k (start prog m0 mg0) s -> returned s tt -> forall x w, ~ In (Some (x, w)) (accesses s).
Proof.
  intros H Hr x w Hin. assert (Hx := t_in_bounds k s x w H Hin). beh H. apply In_nth_error in Hin. destruct Hin as (i & Hi).
  apply (sad_still _ _ _ M' R0 _ tcells_finite _ _ mg0 MInit Hmg' (or_intror eq_refl) HW k s' tt He) with (i := i).
  - apply (er_ret_inv _ _ _ _ _ Hm). exact Hr.
  - eapply t_shows; eassumption.
Qed.

Lemma t_spread k s idx : runs k (start prog m0 mg0) s -> NoDup idx ->
  (forall i, In i idx -> exists x w, nth_error (accesses s) i = Some (Some (x, w))) ->
  Z.of_nat (length idx) <= Z.max 1 (len s0 / (mrec + 1)).
Proof.
  intros H Hnd Hw. assert (HB := t_in_bounds k s). beh H. destruct (slice_elems (off s0) (len s0) ltac:(apply Hs0)) as (L & HL & EL).
  assert (T1 := tuning_ins kd tn Htn). assert (T2 := tuning_rec kd tn Htn).
  destruct (sad_crowd _ _ _ M' R0 _ tcells_finite _ _ mg0 MInit Hmg' (or_intror eq_refl) HW k s' idx L He) as [H1|H1].
  - intros i Hi. apply HL. exact Hi.
  - exact Hnd.
  - intros i Hi. destruct (Hw i Hi) as (x & w & Hx). eapply t_shows; [exact Hm|exact Ht| |exact Hx].
    eapply HB; [exact H|]. eapply nth_error_In. exact Hx.
  - lia.
  - unfold gr, typedGrain in H1. rewrite EL in H1. rewrite Z2Nat.id in H1 by lia.
    assert (Z.of_nat (length idx) <= len s0 / (mrec + 1)); [apply Z.div_le_lower_bound; lia|lia].
Qed.

Lemma t_alone k s : len s0 < 2 * (mrec + 1) -> runs k (start prog m0 mg0) s -> thr s = [] /\ chans (sh s) = 0.
Proof.
  intros Hs H. beh H.
  assert (HW' := fun m => blind_sp f MSeq m (or_intror (conj eq_refl Hs))).
  destruct (sad_alone _ _ _ M' R0 _ _ _ mg0 MSeq Hmg' HW' k s' eq_refl He) as [H1 H2].
  split; [|destruct Hc; lia]. rewrite H1 in Ht. inversion Ht. reflexivity.
Qed.

End Run.
End Any.

(** ** Together *)

Theorem any_elements pl tn opt e s m0 M k st : platOk pl -> tuningOk pl tn -> goSlice pl s ->
  let C := typedCall pl tn opt e s m0 in disturbed C M k st ->
  ~ panicked st /\
  (forall x w, In (Some (x, w)) (accesses st) -> cellsOf s x) /\
  (returned st tt \/ exists st', pstep (cProcs C) st st') /\
  (returned st tt -> forall x w, ~ In (Some (x, w)) (accesses st)).
Proof.
  intros Hpl Htn Hs C (mg0 & Hmg & H). change (exec (procs pl tn e) M (fun _ => False) k (start (sortProg pl tn opt e s) m0 mg0) st) in H.
  split; [exact (t_no_panic pl tn Hpl Htn opt e s Hs m0 M mg0 Hmg k st H)|].
  split; [intros x w Hx; exact (t_in_bounds pl tn Hpl Htn opt e s Hs m0 M mg0 Hmg k st x w H Hx)|].
  split; [exact (t_progress pl tn Hpl Htn opt e s Hs m0 M mg0 Hmg k st H)|].
  exact (t_quiet pl tn Hpl Htn opt e s Hs m0 M mg0 Hmg k st H).
Qed.

Theorem any_elements_resources pl tn opt e s m0 M k st : platOk pl -> tuningOk pl tn -> goSlice pl s ->
  let C := typedCall pl tn opt e s m0 in disturbed C M k st ->
  (forall c, In c (thr st) -> Z.of_nat (depth c) <= Z.log2 (len s) + 2) /\
  Z.of_nat (depth (main st)) <= Z.log2 (len s) + 2 /\ chans (sh st) <= 1 /\
  (len s < recLimit tn C -> thr st = [] /\ chans (sh st) = 0) /\
  forall idx, NoDup idx -> (forall i, In i idx -> exists x w, nth_error (accesses st) i = Some (Some (x, w))) ->
    Z.of_nat (length idx) <= 1 \/ recLimit tn C * Z.of_nat (length idx) <= 2 * len s.
Proof.
  intros Hpl Htn Hs C (mg0 & Hmg & H). change (exec (procs pl tn e) M (fun _ => False) k (start (sortProg pl tn opt e s) m0 mg0) st) in H.
  destruct (t_depth pl tn Hpl Htn opt e s Hs m0 M mg0 Hmg k st H) as [D1 D2]. assert (L := Z.log2_nonneg (len s)).
  assert (ER : recLimit tn C = 2 * (TypedShort.maxRec (kindOf pl e) tn + 1)) by (destruct e; reflexivity).
  assert (T1 := tuning_ins (kindOf pl e) tn Htn). assert (T2 := tuning_rec (kindOf pl e) tn Htn).
  split; [intros c Hc; specialize (D2 c Hc); apply Nat2Z.inj_le in D2; rewrite Z2Nat.id in D2 by lia; exact D2|].
  split; [apply Nat2Z.inj_le in D1; rewrite Z2Nat.id in D1 by lia; exact D1|].
  split; [apply (t_chans pl tn Hpl Htn opt e s Hs m0 M mg0 Hmg k st H)|]. rewrite ER.
  split; [intro Hn; exact (t_alone pl tn Hpl Htn opt e s Hs m0 M mg0 Hmg k st Hn H)|].
  intros idx H1 H2. assert (B := t_spread pl tn Hpl Htn opt e s Hs m0 M mg0 Hmg k st idx H H1 H2).
  set (r := TypedShort.maxRec (kindOf pl e) tn + 1) in *. assert (Hr : 0 < r) by (unfold r; lia).
  assert (D := Z.mul_div_le (len s) r Hr). destruct (Z.max_spec 1 (len s / r)) as [[_ E]|[_ E]]; rewrite E in B; [right; nia|left; lia].
Qed.
