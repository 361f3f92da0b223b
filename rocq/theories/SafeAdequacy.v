(** * From the step-indexed logic to executions of the machine, with their traces *)

From Coq Require Import List ZArith Lia Bool Permutation.
From Verif Require Import Lang SeqLogic ConcLogic Soundness Adequacy SafeLogic Trace HappensBefore.
Import ListNotations.
Open Scope Z_scope.
Local Arguments Z.mul : simpl never.
Local Arguments Z.add : simpl never.
Local Arguments Z.sub : simpl never.

Section SafeAdequacy.
Context {Gr : grain}.
Context {P T R : Type}.
Variable body : P -> cmd P T unit.
Variables (Dm D : nat) (M : Z) (R0 : cells) (Post : R -> (Z -> T) -> Prop).
Hypothesis R0fin : exists l, (forall i, R0 i -> In i l) /\ Z.of_nat (length l) < two64.

Notation SP m := (sp body Dm m D (QMS Post)).
Notation SPT m := (sp body Dm m Dm QTS).
Notation GGI := (@GG Gr T False M R0).

Definition pcmd (e : cmd P T unit * gst T) := fst e.

(** Invariant: safe for [m] more steps. *)
Definition SINV (m : nat) (tr : list event) (s : st P T R) : Prop :=
  exists gm pool deps,
    SP m (main s) gm /\ Forall (fun e => SPT m (fst e) (snd e)) pool /\
    thr s = map fst pool /\ GGI gm (map snd pool) deps (sh s) /\ HB tr (gm :: map snd pool).

Lemma spool_split (pool : list (cmd P T unit * gst T)) l1 c l2 :
  l1 ++ c :: l2 = map fst pool ->
  exists p1 e p2, pool = p1 ++ e :: p2 /\ l1 = map fst p1 /\ c = fst e /\ l2 = map fst p2.
Proof.
  intro H. symmetry in H. apply map_eq_app in H. destruct H as (p1 & p2' & -> & E1 & E2).
  apply map_eq_cons in E2. destruct E2 as (e & p2 & -> & E3 & E4).
  exists p1, e, p2. auto.
Qed.

Lemma SP_down m pool : Forall (fun e => SPT (S m) (fst e) (snd e)) pool ->
  Forall (fun e => SPT m (fst e) (snd e)) pool.
Proof. apply Forall_impl. intros e. apply sp_down. Qed.

Lemma upd1_main (g g' : gst T) l : upd1 (g :: l) O g' (g' :: l).
Proof. intros [|u]; reflexivity. Qed.

Lemma nth_mid {X} (l1 l2 : list X) x u :
  nth_error (l1 ++ x :: l2) u = if Nat.eqb u (length l1) then Some x else nth_error (l1 ++ x :: l2) u.
Proof.
  destruct (Nat.eqb_spec u (length l1)) as [->|H]; [|reflexivity].
  rewrite nth_error_app2 by lia. rewrite Nat.sub_diag. reflexivity.
Qed.

Lemma nth_mid_eq {X} (l1 l2 : list X) x y u : u <> length l1 ->
  nth_error (l1 ++ x :: l2) u = nth_error (l1 ++ y :: l2) u.
Proof.
  intro H. destruct (Nat.lt_ge_cases u (length l1)).
  - rewrite !nth_error_app1 by lia. reflexivity.
  - rewrite !nth_error_app2 by lia. destruct (u - length l1)%nat eqn:E; [lia|reflexivity].
Qed.

Lemma upd1_pool (g0 g g' : gst T) p1 p2 :
  upd1 (g0 :: p1 ++ g :: p2) (S (length p1)) g' (g0 :: p1 ++ g' :: p2).
Proof.
  intros [|u]; [reflexivity|]. simpl. destruct (Nat.eqb_spec u (length p1)) as [->|H].
  - rewrite nth_error_app2 by lia. rewrite Nat.sub_diag. reflexivity.
  - apply nth_mid_eq; exact H.
Qed.

Lemma nth_fork_main (gm gn gc : gst T) L u :
  nth_error (gn :: L ++ [gc]) u =
  if Nat.eqb u 0 then Some gn else if Nat.eqb u (length (gm :: L)) then Some gc else nth_error (gm :: L) u.
Proof.
  destruct u as [|u]; [reflexivity|]. simpl. destruct (Nat.eqb_spec u (length L)) as [->|Hu].
  - apply nth_app_new.
  - destruct (Nat.lt_ge_cases u (length L)).
    + rewrite nth_error_app1 by lia. reflexivity.
    + rewrite nth_error_app2 by lia. destruct (u - length L)%nat as [|d] eqn:Eu; [lia|].
      transitivity (@None (gst T)); [destruct d; reflexivity|symmetry; apply nth_error_None; lia].
Qed.

Lemma nth_fork_pool (gm g gn gc : gst T) p1 p2 u :
  nth_error (gm :: p1 ++ gn :: p2 ++ [gc]) u =
  if Nat.eqb u (S (length p1)) then Some gn
  else if Nat.eqb u (length (gm :: p1 ++ g :: p2)) then Some gc else nth_error (gm :: p1 ++ g :: p2) u.
Proof.
  destruct (Nat.eqb_spec u (S (length p1))) as [->|Hu].
  - simpl. rewrite nth_error_app2 by lia. rewrite Nat.sub_diag. reflexivity.
  - destruct u as [|u]; [reflexivity|].
    transitivity (nth_error (gm :: (p1 ++ g :: p2) ++ [gc]) (S u)).
    + simpl. rewrite <- app_assoc. simpl. apply nth_mid_eq. congruence.
    + exact (nth_fork_main gm gm gc (p1 ++ g :: p2) (S u)).
Qed.

Lemma sameKind_refl (m : mode T) : sameKind m m.
Proof. destruct m; simpl; auto. Qed.

(** The counter reaches zero: all other goroutines have finished. *)
Lemma zero_finished gm pool deps s :
  GGI gm pool deps s -> ngor s = 0 -> sumf part1 pool = 0 ->
  (match md gm with MAct _ => sumf last1 pool = 0 | _ => True end) ->
  ngor s = sumf cnt (gm :: pool) ->
  forall g, In g pool -> md g = MLast \/ finished g.
Proof.
  intros HG Hz Hp Hl Hc g Hin. rewrite Hz, sumf_cons in Hc.
  assert (B1 := cnt_nonneg gm). assert (B2 := sumf_nonneg cnt pool cnt_nonneg).
  assert (Z1 : sumf cnt pool = 0) by lia. apply sumf_zero in Z1; [|apply cnt_nonneg].
  apply sumf_zero in Hp; [|intro x; unfold part1; destruct (md x); lia].
  rewrite Forall_forall in Z1, Hp. specialize (Z1 g Hin). specialize (Hp g Hin).
  assert (Hok : pool_ok g) by (eapply pool_mode; eauto).
  unfold cnt, part1, pool_ok, finished in *.
  destruct (md g); auto; try contradiction; try lia. destruct (a_credit a); lia.
Qed.

Lemma dec_main_others gm a pool deps s deps' g' s' :
  GGI gm pool deps s -> md gm = MAct a -> a_join a = None ->
  GGI g' pool deps' s' -> (exists Pf, md g' = MFinal Pf) ->
  forall g, In g pool -> finished g.
Proof.
  intros HG Em Ej HG' (Pf & E) g Hin. pose proof (gg_phase _ _ _ _ _ _ HG') as Hph.
  unfold phase in Hph. rewrite E in Hph. destruct Hph as (HF & _).
  rewrite Forall_forall in HF. apply HF; exact Hin.
Qed.

Lemma last_others gm g pool deps s :
  GGI gm (g :: pool) deps s -> md g = MLast -> forall h, In h pool -> finished h.
Proof.
  intros HG Em h Hin. pose proof (gg_phase _ _ _ _ _ _ HG) as Hph. unfold phase in Hph.
  assert (Hok : pool_ok h) by (eapply pool_mode; [exact HG|right; exact Hin]).
  assert (L : last1 g = 1) by (unfold last1; rewrite Em; reflexivity).
  assert (L2 := sumf_nonneg last1 pool last1_nonneg).
  assert (Pn : forall x : gst T, 0 <= part1 x) by (intro x; unfold part1; destruct (md x); lia).
  destruct (md gm) eqn:Egm; try contradiction.
  - destruct Hph as (Hph & _). discriminate.
  - destruct Hph as (Hph & _). discriminate.
  - destruct (a_main a); [|contradiction]. destruct Hph as (_ & _ & Hl). rewrite sumf_cons in Hl. lia.
  - destruct Hph as ((C1 & _) & Hp & Hl). rewrite sumf_cons in Hl.
    destruct (Z.eqb_spec (ngor s) 0) as [Ez|Ez]; [|lia].
    rewrite !sumf_cons in C1. rewrite sumf_cons in Hp.
    assert (B0 := cnt_nonneg gm). assert (B1 := cnt_nonneg g). assert (B2 := sumf_nonneg cnt pool cnt_nonneg).
    assert (B3 := sumf_nonneg part1 pool Pn). assert (B4 := Pn g).
    assert (Z1 : sumf cnt pool = 0) by lia. assert (Z2 : sumf part1 pool = 0) by lia.
    assert (Z3 : sumf last1 pool = 0) by lia.
    apply sumf_zero in Z1; [|apply cnt_nonneg]. apply sumf_zero in Z2; [|exact Pn].
    apply sumf_zero in Z3; [|apply last1_nonneg].
    rewrite Forall_forall in Z1, Z2, Z3. specialize (Z1 h Hin). specialize (Z2 h Hin). specialize (Z3 h Hin).
    unfold cnt, part1, last1, pool_ok, finished in *.
    destruct (md h); auto; try contradiction; try lia. destruct (a_credit a); lia.
  - destruct Hph as (HF & _). inversion HF; subst. congruence.
Qed.

(** *** The caller takes a step on its own *)
Lemma sinv_main mm m s m' s' fs ts tr :
  exec_local body m s = Some (m', s', fs) ->
  SINV (S mm) tr (St m ts s) -> SINV mm (tr ++ [label 0 (length ts) m]) (St m' (ts ++ fs) s').
Proof.
  intros He (gm & pool & deps & HW & HP & Ht & HG & HH). simpl main in *; simpl thr in *; simpl sh in *. subst ts.
  pose proof (gg_wfm _ _ _ _ _ _ HG) as (Hdr & HrR & Hag & Hsn & Hwm).
  pose proof (main_mode _ _ _ _ HG) as Hmm.
  assert (HX := GG_excl _ _ _ _ _ _ _ HG).
  assert (Hfin : forall e mn gn dd sn, SP mm mn gn -> GGI gn (map snd pool) dd sn ->
            gstep e (gm :: map snd pool) (gn :: map snd pool) ->
            SINV mm (tr ++ [e]) (St mn (map fst pool ++ []) sn)).
  { intros e mn gn dd sn H1 H2 H3. exists gn, pool, dd. simpl. rewrite app_nil_r.
    split; [exact H1|]. split; [apply SP_down; exact HP|]. split; [reflexivity|]. split; [exact H2|].
    eapply HB_step; eauto. }
  assert (Hstay : forall e gn, dom gn = dom gm -> rd gn = rd gm -> sameKind (md gm) (md gn) ->
    (e = EvStep 0 \/ e = EvAtomic 0 \/ (exists i, e = EvRead 0 i /\ live gm /\ rd gm i) \/
     (exists i, e = EvWrite 0 i /\ live gm /\ dom gm i)) -> gstep e (gm :: map snd pool) (gn :: map snd pool)).
  { intros e gn E1 E2 E3 E4. eapply (gs_stay e O gm gn); auto using upd1_main. }
  unfold exec_local in He. unfold label. rewrite map_length.
  destruct HW as [Hd HW]. destruct (view m) eqn:Hv; try discriminate He; inversion He; subst; clear He.
  - eapply Hfin; [exact HW|exact HG|]. apply Hstay; auto using sameKind_refl.
  - destruct HW as (Hl & Hi & HW). rewrite <- (Hag i Hi) in HW. eapply Hfin; [exact HW|exact HG|].
    apply Hstay; eauto 8 using sameKind_refl.
  - destruct HW as (Hl & Hi & HW). eapply Hfin; [exact HW| |apply Hstay; eauto 8 using sameKind_refl].
    eapply (GG_local_main False M R0 gm); [exact HG|simpl; auto..].
    + intros j Hj. unfold upd; simpl. destruct (j =? i); auto.
    + intros j Hj. unfold upd. destruct (Z.eqb_spec j i); [subst; contradiction|reflexivity].
  - destruct HW as (Hl & HW). eapply Hfin; [exact HW|exact HG|apply Hstay; auto using sameKind_refl].
  - (* fork *)
    destruct HW as [(a & d1 & P1 & P2 & Em & Ec & Ej & Hd1 & Hn1 & Hn2 & HPr & HWc & HW)
                   |(a & dj & d2 & r2 & post & Em & Ea & Ec & Et & Ej & Hdj & Hd2 & Hr2 & Hne & Hdec & HWc & HW)].
    + set (gc := Gst d1 d1 (val gm) (MAct (Act None P1 false false None)) 0) in *.
      exists (Gst (minus (dom gm) d1) (minus (rd gm) d1) (val gm) (MAct (forked a P2)) (seen gm)),
        (pool ++ [(body p, gc)]), deps. simpl main; simpl thr; simpl sh.
      split; [exact HW|]. split; [apply Forall_app; split; [apply SP_down; exact HP|constructor; auto]|].
      split; [rewrite map_app; reflexivity|]. split.
      * rewrite map_app. simpl. eapply GG_perm; [apply Permutation_cons_append|].
        eapply GG_fork_main; eauto.
      * eapply HB_step; [exact HX| |exact HH]. rewrite map_app. simpl map.
        replace (S (length pool)) with (length (gm :: map snd pool)) by (simpl; rewrite map_length; reflexivity).
        eapply (gs_fork O gm _ gc); [reflexivity|intro u; apply nth_fork_main|intros i [H _]; exact H|intros i [H _]; exact H
          |exact Hd1|intros i H; apply Hdr, Hd1, H|reflexivity|left; eexists; reflexivity|rewrite Em; exact I].
    + set (gc := Gst d2 r2 (val gm) (MPart (Join dj post)) 0) in *.
      exists (Gst (minus (dom gm) dj) (minus (rd gm) d2) (val gm)
                     (MAct (setjoin a (Some (Join dj post)))) (seen gm)),
        (pool ++ [(body p, gc)]), deps. simpl main; simpl thr; simpl sh.
      split; [exact HW|]. split; [apply Forall_app; split; [apply SP_down; exact HP|constructor; auto]|].
      split; [rewrite map_app; reflexivity|]. split.
      * rewrite map_app. simpl. eapply GG_perm; [apply Permutation_cons_append|].
        eapply GG_fork_part; eauto.
      * eapply HB_step; [exact HX| |exact HH]. rewrite map_app. simpl map.
        replace (S (length pool)) with (length (gm :: map snd pool)) by (simpl; rewrite map_length; reflexivity).
        eapply (gs_fork O gm _ gc); [reflexivity|intro u; apply nth_fork_main|intros i [H _]; exact H|intros i [H _]; exact H
          |intros i H; apply Hdj, Hr2, Hd2, H|intros i H; apply Hdr, Hdj, Hr2, H|reflexivity
          |right; split; [reflexivity|]; exists (Join dj post); split; [reflexivity|exact Hdj]|rewrite Em; exact I].
  - destruct HW as (Hl & HW). pose proof (gg_maxg _ _ _ _ _ _ HG) as Hmg.
    eapply Hfin; [apply HW; lia|apply GG_seen_main; [exact HG|lia]|].
    apply Hstay; auto using sameKind_refl.
  - destruct HW as (a & Em & Ec & Ej & HW).
    eapply Hfin; [apply HW|apply GG_loadgor_main; eauto|].
    apply Hstay; auto. simpl. rewrite Em. exact I.
  - destruct HW as [(-> & a & Em & Ec & Et & Ej & H2 & HW)|(-> & a & Em & Ec & Ej & HPr & HW)].
    + eapply Hfin; [apply HW|apply GG_inc_main; eauto|].
      apply Hstay; auto. simpl. rewrite Em. exact I.
    + destruct (GG_dec_main False M R0 R0fin gm a _ _ _ HG Em Ec Ej HPr) as (Hz & deps' & HG').
      set (z := (ngor s + (two64 - 1)) mod two64) in *.
      eapply Hfin; [apply HW; exact Hz|exact HG'|].
      eapply (gs_dec O gm); [reflexivity|apply upd1_main|intros i []|intros i []|rewrite Em; exact I| | |].
      * pose proof (main_mode _ _ _ _ HG') as Hmm'. simpl.
        pose proof (gg_phase _ _ _ _ _ _ HG) as Hph. unfold phase in Hph. rewrite Em in Hph.
        destruct (a_main a) eqn:Ea; [|contradiction]. unfold signed_off. rewrite Ea.
        destruct (Z.eqb_spec z 0); [|reflexivity].
        intros u h Hu1 Hu2 Hh. destruct u as [|u]; [congruence|]. simpl in Hh.
        eapply (dec_main_others gm a _ _ _ _ _ _ HG Em Ej HG'); [|eapply nth_error_In; exact Hh].
        simpl. unfold signed_off. rewrite Ea. destruct (Z.eqb_spec z 0); [eauto|contradiction].
      * simpl. unfold signed_off. pose proof (gg_phase _ _ _ _ _ _ HG) as Hph. unfold phase in Hph. rewrite Em in Hph.
        destruct (a_main a); [|contradiction]. destruct (z =? 0); discriminate.
      * reflexivity.
  - destruct HW as (Pr & Em & Hs & Hne & HW). eapply Hfin; [exact HW|eapply GG_makesv; eauto|].
    apply Hstay; auto. simpl. rewrite Em. exact I.
Qed.

(** *** A started goroutine takes a step on its own *)
Lemma sinv_thr mm m l1 c l2 s c' s' fs tr :
  exec_local body c s = Some (c', s', fs) ->
  SINV (S mm) tr (St m (l1 ++ c :: l2) s) ->
  SINV mm (tr ++ [label (S (length l1)) (length (l1 ++ c :: l2)) c]) (St m (l1 ++ c' :: l2 ++ fs) s').
Proof.
  intros He (gm & pool & deps & HW & HP & Ht & HG & HH). simpl main in *; simpl thr in *; simpl sh in *.
  destruct (spool_split _ _ _ _ Ht) as (p1 & e & p2 & -> & -> & -> & ->). clear Ht.
  assert (HX := GG_excl _ _ _ _ _ _ _ HG).
  apply Forall_mid in HP. destruct HP as [HWe HP].
  assert (HG0 := HG). rewrite map_app in HG0; simpl in HG0. apply GG_mid in HG0. rewrite <- map_app in HG0.
  rewrite map_app in HH, HX; simpl in HH, HX.
  set (g := snd e) in *.
  pose proof (gg_wf _ _ _ _ _ _ HG0) as Hwf. inversion Hwf as [|? ? Hwg _]; subst.
  destruct Hwg as (Hdr & HrR & Hag & Hsn & Hwm).
  pose proof (pool_mode _ _ _ _ g HG0 (or_introl eq_refl)) as Hok.
  assert (HPd := SP_down _ _ HP).
  assert (Hfin : forall ev cc gn dd sn, SPT mm cc gn -> GGI gm (gn :: map snd (p1 ++ p2)) dd sn ->
            gstep ev (gm :: map snd p1 ++ g :: map snd p2) (gm :: map snd p1 ++ gn :: map snd p2) ->
            SINV mm (tr ++ [ev]) (St m (map fst p1 ++ cc :: map fst p2 ++ []) sn)).
  { intros ev cc gn dd sn H1 H2 H3. exists gm, (p1 ++ (cc, gn) :: p2), dd. simpl main; simpl thr; simpl sh.
    split; [apply sp_down; exact HW|]. split; [apply Forall_mid; split; auto|].
    split; [rewrite map_app, app_nil_r; reflexivity|]. split.
    - rewrite map_app. simpl. apply GG_mid. rewrite <- map_app. exact H2.
    - rewrite map_app. simpl. eapply HB_step; eauto. }
  assert (Hlen : S (length (map fst p1)) = S (length (map snd p1))) by (rewrite !map_length; reflexivity).
  rewrite Hlen.
  assert (Hnth : nth_error (gm :: map snd p1 ++ g :: map snd p2) (S (length (map snd p1))) = Some g).
  { simpl. rewrite nth_error_app2 by lia. rewrite Nat.sub_diag. reflexivity. }
  assert (Hstay : forall ev gn, dom gn = dom g -> rd gn = rd g -> sameKind (md g) (md gn) ->
    (ev = EvStep (S (length (map snd p1))) \/ ev = EvAtomic (S (length (map snd p1))) \/
     (exists i, ev = EvRead (S (length (map snd p1))) i /\ live g /\ rd g i) \/
     (exists i, ev = EvWrite (S (length (map snd p1))) i /\ live g /\ dom g i)) ->
    gstep ev (gm :: map snd p1 ++ g :: map snd p2) (gm :: map snd p1 ++ gn :: map snd p2)).
  { intros ev gn E1 E2 E3 E4. eapply (gs_stay ev (S (length (map snd p1))) g gn); auto using upd1_pool. }
  unfold exec_local in He. unfold label.
  destruct HWe as [Hd HWe]. destruct (view (fst e)) eqn:Hv; try discriminate He; inversion He; subst; clear He.
  - eapply Hfin; [exact HWe|exact HG0|]. apply Hstay; auto using sameKind_refl.
  - destruct HWe as (Hl & Hi & HWe). rewrite <- (Hag i Hi) in HWe. eapply Hfin; [exact HWe|exact HG0|].
    apply Hstay; eauto 8 using sameKind_refl.
  - destruct HWe as (Hl & Hi & HWe). eapply Hfin; [exact HWe| |apply Hstay; eauto 8 using sameKind_refl].
    eapply (GG_local_pool False M R0 gm g); [exact HG0|simpl; auto..].
    + intros j Hj. unfold upd; simpl. destruct (j =? i); auto.
    + intros j Hj. unfold upd. destruct (Z.eqb_spec j i); [subst; contradiction|reflexivity].
    + intro Hx. unfold live in Hl. rewrite Hx in Hl. contradiction.
  - destruct HWe as (Hl & HWe). eapply Hfin; [exact HWe|exact HG0|apply Hstay; auto using sameKind_refl].
  - (* fork *)
    destruct HWe as [(a & d1 & P1 & P2 & Em & Ec & Ej & Hd1 & Hn1 & Hn2 & HPr & HWc & HWe)
                   |(a & dj & d2 & r2 & post & Em & Ea & Ec & Et & Ej & Hdj & Hd2 & Hr2 & Hne & Hdec & HWc & HWe)].
    2:{ unfold pool_ok in Hok. rewrite Em in Hok. destruct Hok; congruence. }
    set (gc := Gst d1 d1 (val g) (MAct (Act None P1 false false None)) 0) in *.
    set (gn := Gst (minus (dom g) d1) (minus (rd g) d1) (val g) (MAct (forked a P2)) (seen g)) in *.
    exists gm, (p1 ++ (c', gn) :: p2 ++ [(body p, gc)]), deps. simpl main; simpl thr; simpl sh.
    split; [apply sp_down; exact HW|]. split.
    { apply Forall_mid. split; [exact HWe|]. rewrite app_assoc. apply Forall_app; split; auto. }
    split; [rewrite map_app; simpl; rewrite map_app; reflexivity|]. split.
    + rewrite map_app. simpl. rewrite map_app. apply GG_mid. simpl. rewrite app_assoc, <- map_app.
      eapply GG_perm; [apply perm_skip; apply Permutation_cons_append|].
      eapply GG_fork_pool; eauto.
    + eapply HB_step; [exact HX| |exact HH]. rewrite map_app. simpl map. rewrite map_app. simpl map.
      replace (S (length (map fst p1 ++ fst e :: map fst p2)))
        with (length (gm :: map snd p1 ++ g :: map snd p2))
        by (simpl; rewrite !app_length; simpl; rewrite !map_length; reflexivity).
      eapply (gs_fork (S (length (map snd p1))) g gn gc);
        [exact Hnth|intro u; apply nth_fork_pool|intros i [H _]; exact H|intros i [H _]; exact H
          |exact Hd1|intros i H; apply Hdr, Hd1, H|reflexivity|left; eexists; reflexivity|rewrite Em; exact I].
  - destruct HWe as (Hl & HWe). pose proof (gg_maxg _ _ _ _ _ _ HG) as Hmg.
    eapply Hfin; [apply HWe; lia|eapply GG_seen_pool; [exact HG0|lia]|].
    apply Hstay; auto using sameKind_refl.
  - destruct HWe as (a & Em & Ec & Ej & HWe).
    eapply Hfin; [apply HWe|eapply GG_loadgor_pool; eauto|].
    apply Hstay; auto. simpl. rewrite Em. exact I.
  - destruct HWe as [(-> & a & Em & Ec & Et & Ej & H2 & HWe)|(-> & a & Em & Ec & Ej & HPr & HWe)].
    + eapply Hfin; [apply HWe|eapply GG_inc_pool; eauto|].
      apply Hstay; auto. simpl. rewrite Em. exact I.
    + destruct (GG_dec_pool False M R0 R0fin gm g a _ _ _ HG0 Em Ec Ej HPr) as (Hz & deps' & HG').
      set (z := (ngor s + (two64 - 1)) mod two64) in *.
      assert (Ea : a_main a = None) by (unfold pool_ok in Hok; rewrite Em in Hok; apply Hok).
      eapply Hfin; [apply HWe; exact Hz|exact HG'|].
      eapply (gs_dec (S (length (map snd p1))) g); [exact Hnth|apply upd1_pool|intros i []|intros i []|rewrite Em; exact I| | |].
      * simpl. unfold signed_off. rewrite Ea. destruct (Z.eqb_spec z 0) as [Ez|Ez]; [|discriminate].
        intros u h Hu1 Hu2 Hh. destruct u as [|u]; [congruence|]. simpl in Hh.
        assert (Hin : In h (map snd (p1 ++ p2))).
        { rewrite map_app. clear - Hh Hu1. apply nth_error_split in Hh. destruct Hh as (q1 & q2 & E & El).
          assert (Hne : u <> length (map snd p1)) by congruence. subst u. clear Hu1.
          revert q1 E Hne. generalize (map snd p1). intro L. induction L as [|x L IH]; intros [|y q1] E Hne; simpl in *.
          - congruence.
          - injection E as _ E. rewrite E. apply in_elt.
          - inversion E; subst. left; reflexivity.
          - inversion E; subst. right. apply (IH q1); [assumption|congruence]. }
        eapply last_others; [exact HG'| |exact Hin]. simpl. unfold signed_off. rewrite Ea, Ez. reflexivity.
      * intros _. discriminate.
      * simpl. unfold signed_off. rewrite Ea. intro Pf. destruct (z =? 0); discriminate.
  - destruct HWe as (Pr & Em & _). unfold pool_ok in Hok. rewrite Em in Hok. contradiction.
Qed.

Lemma spool_no_recv mm pool deps s gm e k' :
  GGI gm (map snd pool) deps s -> In e pool -> SPT (S mm) (fst e) (snd e) -> view (fst e) = HRecv k' -> False.
Proof.
  intros HG Hin [_ HW] Hv.
  assert (Hok : pool_ok (snd e)) by (eapply pool_mode; [exact HG|]; apply in_map; exact Hin).
  unfold pool_ok in Hok. rewrite Hv in HW. destruct HW as [(a & j & Em & Ej & _)|(Pf & Em & _)]; rewrite Em in Hok.
  - destruct Hok; congruence.
  - exact Hok.
Qed.

Lemma nth_two (gm gm' g g' : gst T) p1 p2 u :
  nth_error (gm' :: p1 ++ g' :: p2) u =
  if Nat.eqb u 0 then Some gm' else if Nat.eqb u (S (length p1)) then Some g'
  else nth_error (gm :: p1 ++ g :: p2) u.
Proof.
  destruct u as [|u]; [reflexivity|]. exact (upd1_pool gm g g' p1 p2 (S u)).
Qed.

Theorem sinv_tstep mm e tr s s' : tstep body e s s' -> SINV (S mm) tr s -> SINV mm (tr ++ [e]) s'.
Proof.
  intros Hs HI. destruct Hs.
  - eapply sinv_main; eauto.
  - eapply sinv_thr; eauto.
  - (* goroutine -> caller *)
    destruct HI as (gm & pool & deps & HW & HP & Ht & HG & HH). simpl main in *; simpl thr in *; simpl sh in *.
    destruct (spool_split _ _ _ _ Ht) as (p1 & e & p2 & -> & -> & -> & ->). clear Ht.
    assert (HX := GG_excl _ _ _ _ _ _ _ HG).
    apply Forall_mid in HP. destruct HP as [HWe HP].
    assert (HG0 := HG). rewrite map_app in HG0; simpl in HG0. apply GG_mid in HG0. rewrite <- map_app in HG0.
    rewrite map_app in HH, HX; simpl in HH, HX.
    assert (Hnth : nth_error (gm :: map snd p1 ++ snd e :: map snd p2) (S (length (map snd p1))) = Some (snd e)).
    { simpl. rewrite nth_error_app2 by lia. rewrite Nat.sub_diag. reflexivity. }
    assert (Hlen : length (map fst p1) = length (map snd p1)) by (rewrite !map_length; reflexivity).
    rewrite Hlen.
    assert (Hok : pool_ok (snd e)) by (eapply pool_mode; [exact HG0|]; left; reflexivity).
    destruct HW as [_ HW]. rewrite H0 in HW. destruct HWe as [_ HWe]. rewrite H in HWe.
    destruct HW as [(a & j & Em & Ej & HW)|(Pf & Em & HW)];
      destruct HWe as [(j0 & Em0 & Hp0 & HWe)|(Em0 & HWe)].
    + destruct (GG_join False M R0 gm (snd e) a j j0 _ _ _ v HG0 Em Ej Em0 Hp0) as (Ha & Hp & HG').
      assert (j0 = j) as ->.
      { pose proof (gg_vsm _ _ _ _ _ _ HG0) as Hv. inversion Hv as [|? ? Hv1 _]; subst.
        unfold vs_main in Hv1. rewrite Em0 in Hv1. destruct Hv1 as (Hv1 & _). unfold joined in Hv1.
        rewrite Em in Hv1. congruence. }
      exists (Gst (union (dom gm) (j_D j)) (union (rd gm) (j_D j)) (mem s) (MAct (setjoin a None)) (seen gm)),
        (p1 ++ (k, noown (snd e) MDone) :: p2), deps. simpl main; simpl thr; simpl sh.
      split; [apply HW; auto|]. split; [apply Forall_mid; split; [exact HWe|apply SP_down; exact HP]|].
      split; [rewrite map_app; reflexivity|]. split.
      * rewrite map_app. simpl. apply GG_mid. rewrite <- map_app. exact HG'.
      * rewrite map_app. simpl. eapply HB_step; [exact HX| |exact HH].
        eapply (gs_join _ (snd e) gm (Gst (union (dom gm) (j_D j)) (union (rd gm) (j_D j)) (mem s)
                  (MAct (setjoin a None)) (seen gm)) (noown (snd e) MDone));
          [reflexivity|exact Hnth|discriminate|exact Em0|reflexivity|rewrite Em; exact I|intros i Hi; exact Hi
          |intros i Hi; exact Hi| | | |intro u; apply (nth_two gm _ (snd e))];
          [reflexivity|intros i []|intros i []].
    + exfalso. pose proof (gg_phase _ _ _ _ _ _ HG0) as Hph. unfold phase in Hph. rewrite Em in Hph.
      destruct (a_main a); [|contradiction]. destruct Hph as (_ & _ & Hl). rewrite sumf_cons in Hl.
      unfold last1 at 1 in Hl. rewrite Em0 in Hl.
      pose proof (sumf_nonneg last1 (map snd (p1 ++ p2)) last1_nonneg). lia.
    + exfalso. pose proof (gg_vsm _ _ _ _ _ _ HG0) as Hv. inversion Hv as [|? ? Hv1 _]; subst.
      unfold vs_main in Hv1. rewrite Em0 in Hv1. destruct Hv1 as (Hv1 & _). unfold joined in Hv1.
      rewrite Em in Hv1. discriminate.
    + exists (setmd gm (MFinal Pf)), (p1 ++ (k, noown (snd e) MDone) :: p2), []. simpl main; simpl thr; simpl sh.
      split; [apply HW|]. split; [apply Forall_mid; split; [exact HWe|apply SP_down; exact HP]|].
      split; [rewrite map_app; reflexivity|]. split.
      * rewrite map_app. simpl. apply GG_mid. rewrite <- map_app. eapply GG_finish; eauto.
      * rewrite map_app. simpl. eapply HB_step; [exact HX| |exact HH].
        eapply (gs_final _ (snd e) gm (setmd gm (MFinal Pf)) (noown (snd e) MDone) Pf);
          [reflexivity|exact Hnth|discriminate|exact Em0|reflexivity|exists Pf; exact Em|intros i Hi; exact Hi
          |intros i Hi; exact Hi|reflexivity|intros i []|intros i []|intro u; apply (nth_two gm _ (snd e))].
  - (* caller never sends *)
    exfalso. destruct HI as (gm & pool & deps & HW & HP & Ht & HG & HH). simpl in *.
    pose proof (main_mode _ _ _ _ HG) as Hmm. destruct HW as [_ HW]. rewrite H in HW.
    destruct HW as [(j & Em & _)|(Em & _)]; rewrite Em in Hmm; exact Hmm.
  - exfalso. destruct HI as (gm & pool & deps & HW & HP & Ht & HG & HH). simpl in *.
    rewrite app_comm_cons, app_assoc in Ht.
    destruct (spool_split _ _ _ _ Ht) as (p1 & e & p2 & -> & _ & -> & _).
    eapply (spool_no_recv mm); [exact HG| | |exact H0]; [apply in_elt|].
    rewrite Forall_forall in HP. apply (HP e). apply in_elt.
  - exfalso. destruct HI as (gm & pool & deps & HW & HP & Ht & HG & HH). simpl in *.
    destruct (spool_split _ _ _ _ Ht) as (p1 & e & p2 & -> & _ & -> & _).
    eapply (spool_no_recv mm); [exact HG| | |exact H]; [apply in_elt|].
    rewrite Forall_forall in HP. apply (HP e). apply in_elt.
  - (* outdated values of the counter *)
    destruct HI as (gm & pool & deps & HW & HP & Ht & HG & HH). simpl main in *; simpl thr in *; simpl sh in *. subst ts.
    assert (HX := GG_excl _ _ _ _ _ _ _ HG).
    destruct HW as [_ HW]. rewrite H in HW. destruct HW as (a & Em & Ec & Ej & HW).
    exists (setmd gm (MAct (settok a (z <? seen gm)))), pool, deps. simpl main; simpl thr; simpl sh.
    split; [apply HW|]. split; [apply SP_down; exact HP|]. split; [reflexivity|].
    split; [apply GG_stale_main; auto|]. eapply HB_step; [exact HX| |exact HH].
    eapply (gs_stay _ O gm); [reflexivity|apply upd1_main|reflexivity|reflexivity| |auto].
    simpl. rewrite Em. exact I.
  - destruct HI as (gm & pool & deps & HW & HP & Ht & HG & HH). simpl main in *; simpl thr in *; simpl sh in *.
    destruct (spool_split _ _ _ _ Ht) as (p1 & e & p2 & -> & -> & -> & ->). clear Ht.
    assert (HX := GG_excl _ _ _ _ _ _ _ HG).
    apply Forall_mid in HP. destruct HP as [HWe HP].
    assert (HG0 := HG). rewrite map_app in HG0; simpl in HG0. apply GG_mid in HG0. rewrite <- map_app in HG0.
    rewrite map_app in HH, HX; simpl in HH, HX.
    assert (Hlen : S (length (map fst p1)) = S (length (map snd p1))) by (rewrite !map_length; reflexivity).
    rewrite Hlen.
    destruct HWe as [_ HWe]. rewrite H in HWe. destruct HWe as (a & Em & Ec & Ej & HWe).
    set (gn := setmd (snd e) (MAct (settok a (z <? seen (snd e))))).
    exists gm, (p1 ++ (k z, gn) :: p2), deps. simpl main; simpl thr; simpl sh.
    split; [apply sp_down; exact HW|]. split; [apply Forall_mid; split; [apply HWe|apply SP_down; exact HP]|].
    split; [rewrite map_app; reflexivity|]. split.
    + rewrite map_app. simpl. apply GG_mid. rewrite <- map_app. apply GG_stale_pool; auto.
    + rewrite map_app. simpl. eapply HB_step; [exact HX| |exact HH].
      eapply (gs_stay _ (S (length (map snd p1))) (snd e) gn); [|apply upd1_pool|reflexivity|reflexivity| |auto].
      * simpl. rewrite nth_error_app2 by lia. rewrite Nat.sub_diag. reflexivity.
      * unfold gn. simpl. rewrite Em. exact I.
Qed.

Lemma sinv_estep mm tr s s' : estep M R0 s s' -> SINV mm tr s -> SINV mm tr s'.
Proof.
  intros Hs (gm & pool & deps & HW & HP & Ht & HG & HH). destruct Hs. simpl in *.
  exists gm, pool, deps. simpl. split; [exact HW|]. split; [exact HP|]. split; [exact Ht|].
  split; [apply GG_env; auto|exact HH].
Qed.

Variables (c0 : cmd P T R) (m0 : Z -> T) (mg0 : Z) (md0 : mode T).
Hypothesis Hmg0 : 0 <= mg0 <= M.
Hypothesis Hmd0 : md0 = MSeq \/ md0 = MInit.
Hypothesis HW0 : forall m, SP m c0 (Gst R0 R0 m0 md0 0).

Lemma HB_nil (gs : list (gst T)) : HB [] gs.
Proof.
  constructor; try (intros n; destruct n; discriminate).
  - intros (i & j & ei & ej & x & wi & wj & _ & Hi & _). destruct i; discriminate.
Qed.

Lemma start_GGs : GGI (Gst R0 R0 m0 md0 0) [] [] (Sh m0 0 mg0 0).
Proof.
  constructor; simpl; auto.
  - split; [auto|]. split; [auto|]. split; [intros i Hi; reflexivity|]. split; [simpl; lia|].
    unfold wf_md; simpl. destruct Hmd0 as [-> | ->]; exact I.
  - unfold phase. simpl. destruct Hmd0 as [-> | ->]; auto.
Qed.

Theorem sreach_inv tr s : texec body M R0 tr (start c0 m0 mg0) s -> forall m, SINV m tr s.
Proof.
  intro H. remember (start c0 m0 mg0) as s0 eqn:E. induction H; subst; intro mm.
  - exists (Gst R0 R0 m0 md0 0), [], []. simpl. split; [apply HW0|]. split; [constructor|].
    split; [reflexivity|]. split; [|apply HB_nil].
    apply start_GGs.
  - eapply sinv_tstep; eauto.
  - eapply sinv_estep; eauto.
Qed.

Lemma xreach_inv k s : exec body M R0 k (start c0 m0 mg0) s -> exists tr, forall m, SINV m tr s.
Proof.
  intro H. destruct (exec_texec _ _ _ _ _ _ H) as (tr & _ & HT). exists tr. apply sreach_inv; exact HT.
Qed.

(** ** Consequences *)

Theorem sad_no_data_race tr s : texec body M R0 tr (start c0 m0 mg0) s -> ~ dataRace tr.
Proof.
  intro H. destruct (sreach_inv tr s H 1) as (gm & pool & deps & _ & _ & _ & _ & HH).
  apply (hb_norace _ _ HH).
Qed.

(** At the return, every access of every goroutine is known to the caller. *)
Theorem sad_return_knows tr s r : texec body M R0 tr (start c0 m0 mg0) s -> returned s r ->
  forall n e x w, nth_error tr n = Some e -> touches e x w -> knows tr O n.
Proof.
  intros H Hr n e x w Hn Hto. destruct (sreach_inv tr s H 1) as (gm & pool & deps & HW & _ & _ & HG & HH).
  unfold returned in Hr. destruct HW as [_ HW]. rewrite Hr in HW. unfold QMS, QM in HW.
  pose proof (gg_phase _ _ _ _ _ _ HG) as Hph. unfold phase in Hph.
  assert (Hsolo : map snd pool = [] -> knows tr O n).
  { intro E. rewrite E in HH. 
    assert (Hd : exists v, doneBy e v) by (destruct Hto as [(_ & v & ->)|(_ & v & ->)]; exists v; reflexivity).
    destruct Hd as (v & Hd). destruct (hb_in _ _ HH _ _ _ Hn Hd) as (g & Hg).
    destruct v as [|v]; [eapply knows_self; eauto|destruct v; discriminate]. }
  destruct (md gm) eqn:Em; try contradiction.
  - apply Hsolo. apply Hph.
  - apply Hsolo. apply Hph.
  - eapply (hb_final _ _ HH); eauto. reflexivity.
Qed.

(** The call together with what the caller does before and after it. *)
Theorem sad_surroundings tr s pre : texec body M R0 tr (start c0 m0 mg0) s -> callerOnly pre ->
  ~ dataRace (pre ++ tr) /\
  forall r post, returned s r -> callerOnly post -> ~ dataRace (pre ++ tr ++ post).
Proof.
  intros H Hpre. assert (Hn := sad_no_data_race tr s H).
  assert (G : forall post, callerOnly post -> (post <> [] -> exists r, returned s r) -> ~ dataRace (pre ++ tr ++ post)).
  { intros post Hpost Hr. apply norace_embed; auto.
    - intros n e t. apply (all_started body M R0 c0 m0 mg0 tr s H).
    - intros Hne n e x w Hno Hto. destruct (Hr Hne) as (r & Hret). eapply sad_return_knows; eauto. }
  split; [|intros r post Hret Hpost; apply G; eauto].
  rewrite <- (app_nil_r tr). apply G; [constructor|congruence].
Qed.

Lemma s_live {A} mm D' (Q : A -> gst T -> Prop) c g i w : sp body Dm (S mm) D' Q c g -> access c = Some (i, w) ->
  live g /\ (w = true -> dom g i) /\ (w = false -> rd g i).
Proof.
  intros [_ HW] Ha. unfold access in Ha. destruct (view c); try discriminate; inversion Ha; subst.
  - destruct HW as (H1 & H2 & _). split; [exact H1|]. split; [discriminate|auto].
  - destruct HW as (H1 & H2 & _). split; [exact H1|]. split; [auto|discriminate].
Qed.

Theorem sad_no_panic k s : exec body M R0 k (start c0 m0 mg0) s -> ~ panicked s.
Proof.
  intros H Hp. destruct (xreach_inv k s H) as (tr & HI).
  destruct (HI 1%nat) as (gm & pool & deps & HW & HP & Ht & _).
  destruct Hp as [Hp|(c & Hin & Hp)].
  - destruct HW as [_ HW]. rewrite Hp in HW. exact HW.
  - rewrite Ht in Hin. apply in_map_iff in Hin. destruct Hin as (e & <- & Hin).
    rewrite Forall_forall in HP. destruct (HP e Hin) as [_ HWe]. rewrite Hp in HWe. exact HWe.
Qed.

Theorem sad_depth k s : exec body M R0 k (start c0 m0 mg0) s ->
  (depth (main s) <= D)%nat /\ forall c, In c (thr s) -> (depth c <= Dm)%nat.
Proof.
  intros H. destruct (xreach_inv k s H) as (tr & HI).
  destruct (HI 1%nat) as (gm & pool & deps & HW & HP & Ht & _).
  split; [apply HW|]. intros c Hin. rewrite Ht in Hin. apply in_map_iff in Hin. destruct Hin as (e & <- & Hin).
  rewrite Forall_forall in HP. apply (HP e Hin).
Qed.

Theorem sad_chans k s : exec body M R0 k (start c0 m0 mg0) s -> 0 <= chans (sh s) <= 1.
Proof.
  intros H. destruct (xreach_inv k s H) as (tr & HI).
  destruct (HI 1%nat) as (gm & pool & deps & HW & HP & Ht & HG & _).
  pose proof (gg_phase _ _ _ _ _ _ HG) as Hph. unfold phase, common in Hph.
  destruct (md gm); try contradiction; try (destruct (a_main a); [|contradiction]); intuition lia.
Qed.

(** However outdated the values read from the counter are: the goroutines about to access an
    element have more than [gr] elements each. *)
Theorem sad_spread k s idx L : exec body M R0 k (start c0 m0 mg0) s -> (forall i, R0 i -> In i L) ->
  NoDup idx -> (forall i, In i idx -> exists x w, nth_error (accesses s) i = Some (Some (x, w))) ->
  Z.of_nat (length idx) <= 1 \/ (Z.of_nat gr + 1) * Z.of_nat (length idx) <= Z.of_nat (length L).
Proof.
  intros H HL Hnd Hw. destruct (xreach_inv k s H) as (tr & HI).
  destruct (HI 1%nat) as (gm & pool & deps & HW & HP & Ht & HG & _).
  rewrite Forall_forall in HP.
  assert (LB : forall g : gst T, live g -> 1 <= busy g) by (intro g; unfold live, busy; destruct (md g); auto; lia).
  assert (B1 : Z.of_nat (length idx) <= sumf busy (gm :: map snd pool)).
  { apply count_le; auto.
    - intro g. unfold busy. destruct (md g); lia.
    - intros i Hin. destruct (Hw i Hin) as (x & w & Ha). unfold accesses in Ha.
      destruct i as [|i]; cbn [nth_error map] in Ha |- *.
      + inversion Ha as [Ha']. exists gm. split; [reflexivity|]. apply LB.
        eapply s_live; [exact HW|exact Ha'].
      + rewrite Ht, map_map, nth_error_map in Ha.
        destruct (nth_error pool i) as [e|] eqn:Ee; [|discriminate]. cbn [option_map] in Ha. inversion Ha as [Ha'].
        exists (snd e). rewrite nth_error_map, Ee. split; [reflexivity|]. apply LB.
        eapply s_live; [exact (HP e (nth_error_In _ _ Ee))|exact Ha']. }
  destruct (busy_share _ _ _ _ _ _ _ L HG HL); [left|right]; nia.
Qed.

(** Every access is to a cell of the region. *)
Theorem sad_in_bounds k s a x w : exec body M R0 k (start c0 m0 mg0) s ->
  In a (accesses s) -> a = Some (x, w) -> R0 x.
Proof.
  intros H Hin ->. destruct (xreach_inv k s H) as (tr & HI).
  destruct (HI 1%nat) as (gm & pool & deps & HW & HP & Ht & HG & _).
  rewrite Forall_forall in HP.
  pose proof (gg_wfm _ _ _ _ _ _ HG) as (Hdm & HRm & _).
  pose proof (gg_wf _ _ _ _ _ _ HG) as Hwf. rewrite Forall_forall in Hwf.
  unfold accesses in Hin. destruct Hin as [Hin|Hin].
  - destruct (s_live _ _ _ _ _ _ _ HW Hin) as (_ & A & B). destruct w; auto.
  - rewrite Ht, map_map in Hin. apply in_map_iff in Hin. destruct Hin as (e & He & Hin).
    destruct (Hwf (snd e) (in_map snd _ _ Hin)) as (Hd & HR & _).
    destruct (s_live _ _ _ _ _ _ _ (HP e Hin) He) as (_ & A & B). destruct w; auto.
Qed.

Theorem sad_frame k s s' : exec body M R0 k (start c0 m0 mg0) s -> pstep body s s' ->
  forall i, ~ R0 i -> mem (sh s') i = mem (sh s) i.
Proof.
  intros H Hs i Hi.
  assert (Hb := sad_in_bounds k s).
  assert (Hone : forall A (c : cmd P T A) s0 c' s1 fs, exec_local body c s0 = Some (c', s1, fs) ->
            (forall x, access c = Some (x, true) -> R0 x) -> mem s1 i = mem s0 i).
  { intros A c s0 c' s1 fs He Ha. unfold exec_local in He. unfold access in Ha.
    destruct (view c); inversion He; subst; simpl; auto.
    unfold upd. destruct (Z.eqb_spec i i0); auto. subst. exfalso. apply Hi. apply Ha. reflexivity. }
  destruct Hs as [s s' Hs|m ts s k0 z Hvs|m l1 c l2 s k0 z Hvs]; [|reflexivity|reflexivity].
  destruct Hs; simpl; auto.
  - eapply Hone; eauto. intros x Hx. eapply (Hb _ x true H); [left; exact Hx|reflexivity].
  - eapply Hone; eauto. intros x Hx. eapply (Hb (access c) x true H); [|exact Hx].
    right. simpl. rewrite map_app. apply in_or_app. right. left. reflexivity.
Qed.

Theorem sad_return k s r : exec body M R0 k (start c0 m0 mg0) s -> returned s r -> Post r (mem (sh s)).
Proof.
  intros H Hr. destruct (xreach_inv k s H) as (tr & HI).
  destruct (HI 1%nat) as (gm & pool & deps & HW & HP & Ht & HG & _).
  pose proof (gg_wfm _ _ _ _ _ _ HG) as (_ & _ & Hag & _).
  pose proof (gg_phase _ _ _ _ _ _ HG) as Hph. unfold phase in Hph.
  unfold returned in Hr. destruct HW as [_ HW]. rewrite Hr in HW. unfold QMS, QM in HW.
  destruct (md gm) eqn:Em; try contradiction; auto.
  destruct Hph as (_ & _ & HPf). apply HW. apply HPf. auto.
Qed.

(** Once the call has returned nobody is about to touch the memory. *)
Theorem sad_quiet k s r : exec body M R0 k (start c0 m0 mg0) s -> returned s r ->
  forall x w, ~ In (Some (x, w)) (accesses s).
Proof.
  intros H Hr x w Hin. destruct (xreach_inv k s H) as (tr & HI).
  destruct (HI 1%nat) as (gm & pool & deps & HW & HP & Ht & HG & _).
  pose proof (gg_phase _ _ _ _ _ _ HG) as Hph. unfold phase in Hph.
  unfold returned in Hr. destruct HW as [_ HW]. rewrite Hr in HW. unfold QMS, QM in HW.
  unfold accesses in Hin. destruct Hin as [Hin|Hin]; [unfold access in Hin; rewrite Hr in Hin; discriminate|].
  rewrite Ht, map_map in Hin. apply in_map_iff in Hin. destruct Hin as (e & He & Hin).
  assert (Hp : md (snd e) = MDone).
  { destruct (md gm) eqn:Em; try contradiction.
    - destruct Hph as (Hp & _). destruct pool; [destruct Hin|discriminate].
    - destruct Hph as (Hp & _). destruct pool; [destruct Hin|discriminate].
    - destruct Hph as (Hp & _). rewrite Forall_forall in Hp. apply Hp. apply in_map. exact Hin. }
  rewrite Forall_forall in HP. destruct (s_live _ _ _ _ _ _ _ (HP e Hin) He) as (Hl & _).
  unfold live in Hl. rewrite Hp in Hl. exact Hl.
Qed.

Theorem sad_progress k s : exec body M R0 k (start c0 m0 mg0) s ->
  (exists r, returned s r) \/ exists s', pstep body s s'.
Proof.
  intros H. destruct (xreach_inv k s H) as (tr & HI).
  destruct (HI 1%nat) as (gm & pool & deps & HW & HP & Ht & HG & _).
  destruct s as [m ts sh0]. simpl main in *; simpl thr in *; simpl sh in *.
  pose proof (main_mode _ _ _ _ HG) as Hmm.
  pose proof (gg_phase _ _ _ _ _ _ HG) as Hph. unfold phase in Hph.
  assert (Hloc : forall x, exec_local body m sh0 = Some x -> exists s', pstep body (St m ts sh0) s').
  { intros [[m' s'] fs] He. eexists. apply step_now, step_main. exact He. }
  assert (Hlt : forall e x, In e pool -> exec_local body (fst e) sh0 = Some x ->
            exists s', pstep body (St m ts sh0) s').
  { intros e [[c' s'] fs] Hin He. destruct (in_split _ _ Hin) as (p1 & p2 & ->).
    rewrite Ht, map_app. simpl. eexists. apply step_now, step_thr. exact He. }
  assert (Hsnd : forall e v k1 k2, In e pool -> view (fst e) = HSend v k1 -> view m = HRecv k2 ->
            exists s', pstep body (St m ts sh0) s').
  { intros e v k1 k2 Hin He Hm. destruct (in_split _ _ Hin) as (p1 & p2 & ->).
    rewrite Ht, map_app. simpl. eexists. apply step_now; eapply step_to_main; eassumption. }
  rewrite Forall_forall in HP. destruct HW as [_ HW].
  assert (Hthr : forall e k2, In e pool -> view m = HRecv k2 ->
     (match md (snd e) with MAct _ | MPart _ | MLast => True | _ => False end) ->
     exists s', pstep body (St m ts sh0) s').
  { intros e k2 Hin Hm Hk. assert (HWe := HP e Hin). simpl in HWe. destruct HWe as [_ HWe].
    destruct (view (fst e)) eqn:Ev; try (eapply Hlt; [exact Hin|unfold exec_local; rewrite Ev; reflexivity]).
    - unfold QTS in HWe. rewrite HWe in Hk. contradiction.
    - contradiction.
    - eapply Hsnd; eauto.
    - exfalso. eapply (spool_no_recv 0); [exact HG|exact Hin|exact (HP e Hin)|exact Ev]. }
  destruct (view m) eqn:Hv;
    try (right; eapply Hloc; unfold exec_local; rewrite Hv; reflexivity).
  - left. exists a. exact Hv.
  - contradiction.
  - destruct HW as [(j & Em & _)|(Em & _)]; rewrite Em in Hmm; contradiction.
  - right. destruct HW as [(a & j & Em & Ej & _)|(Pf & Em & _)].
    + rewrite Em in Hph. destruct (a_main a); [|contradiction]. destruct Hph as (_ & Hp1 & _).
      rewrite Ej in Hp1.
      destruct (sumf_pos_ex part1 (map snd pool) ltac:(lia)) as (g & Hg & Hpg).
      apply in_map_iff in Hg. destruct Hg as (e & <- & Hin).
      eapply Hthr; eauto. unfold part1 in Hpg. destruct (md (snd e)); auto; lia.
    + rewrite Em in Hph. destruct Hph as ((C1 & _) & Hp1 & Hl1).
      destruct (Z.eqb_spec (ngor sh0) 0) as [Hz|Hz].
      * destruct (sumf_pos_ex last1 (map snd pool) ltac:(lia)) as (g & Hg & Hpg).
        apply in_map_iff in Hg. destruct Hg as (e & <- & Hin).
        eapply Hthr; eauto. unfold last1 in Hpg. destruct (md (snd e)); auto; lia.
      * assert (Hpos : 0 < sumf cnt (map snd pool)).
        { rewrite sumf_cons in C1. unfold cnt at 1 in C1. rewrite Em in C1.
          pose proof (sumf_nonneg cnt (map snd pool) cnt_nonneg). lia. }
        destruct (sumf_pos_ex cnt (map snd pool) Hpos) as (g & Hg & Hpg).
        apply in_map_iff in Hg. destruct Hg as (e & <- & Hin).
        eapply Hthr; eauto. unfold cnt in Hpg. destruct (md (snd e)); auto; lia.
Qed.

End SafeAdequacy.
