(** * From the logic of unreliable reads to executions of the machine, with their traces *)

From Coq Require Import List ZArith Lia Bool Permutation.
From Verif Require Import Lang SeqLogic ConcLogic Soundness Adequacy SafeLogic Trace HappensBefore SafeAdequacy Sly.
Import ListNotations.
Open Scope Z_scope.
Local Arguments Z.mul : simpl never.
Local Arguments Z.add : simpl never.
Local Arguments Z.sub : simpl never.

(** ** Executions in which some reads deliver anything *)

Section Lies.
Context {P T R : Type}.
Variable body : P -> cmd P T unit.
Variable lax : bool.

(** A step, or a read (of the caller; if [lax], of any goroutine) that delivers anything. *)
Inductive lstep : event -> st P T R -> st P T R -> Prop :=
| lstep_true e s s' : tstep body e s s' -> lstep e s s'
| lstep_lie t x m ts ng mg ch w mm s' :
    lax = true \/ t = O -> tstep body (EvRead t x) (St m ts (Sh mm ng mg ch)) s' ->
    lstep (EvRead t x) (St m ts (Sh w ng mg ch)) (St (main s') (thr s') (Sh w ng mg ch)).

Inductive lexec (M : Z) (Rg : Z -> Prop) : list event -> st P T R -> st P T R -> Prop :=
| lexec_refl s : lexec M Rg [] s s
| lexec_prog tr e s s1 s2 : lexec M Rg tr s s1 -> lstep e s1 s2 -> lexec M Rg (tr ++ [e]) s s2
| lexec_env tr s s1 s2 : lexec M Rg tr s s1 -> estep M Rg s1 s2 -> lexec M Rg tr s s2.

(** Reads of the caller may be overlooked. *)
Definition blur (e e' : event) : Prop := e' = e \/ (lax = true /\ exists x, e = EvRead 0 x /\ e' = EvStep 0).

Lemma blur_done e e' t : blur e e' -> doneBy e' t -> doneBy e t.
Proof. intros [->|(_ & x & -> & ->)]; auto. Qed.

Lemma blur_nth tr tr' j e' : Forall2 blur tr tr' -> nth_error tr' j = Some e' ->
  exists e, nth_error tr j = Some e /\ blur e e'.
Proof.
  intro H. revert j. induction H as [|a b l l' H1 H2 IH]; intros [|j] E; try discriminate.
  - inversion E; subst. exists a. auto.
  - apply IH. exact E.
Qed.

Lemma blur_nth1 tr tr' j e : Forall2 blur tr tr' -> nth_error tr j = Some e ->
  exists e', nth_error tr' j = Some e' /\ blur e e'.
Proof.
  intro H. revert j. induction H as [|a b l l' H1 H2 IH]; intros [|j] E; try discriminate.
  - inversion E; subst. exists b. auto.
  - apply IH. exact E.
Qed.

Lemma blur_hb tr tr' i j : Forall2 blur tr tr' -> hb tr' i j -> hb tr i j.
Proof.
  intros HF H. induction H as [i j ei ej t Hij H1 H2 H3 H4|i j t u ej Hij H1 H2 H3|i j t u Hij H1 H2|i j k H1 IH1 H2 IH2].
  - destruct (blur_nth _ _ _ _ HF H1) as (e1 & N1 & B1). destruct (blur_nth _ _ _ _ HF H2) as (e2 & N2 & B2).
    eapply hb_program; [exact Hij|exact N1|exact N2|eapply blur_done; eassumption|eapply blur_done; eassumption].
  - destruct (blur_nth _ _ _ _ HF H1) as (e1 & N1 & B1). destruct (blur_nth _ _ _ _ HF H2) as (e2 & N2 & B2).
    destruct B1 as [E|(_ & x & _ & E)]; [subst e1|discriminate].
    eapply hb_go; [exact Hij|exact N1|exact N2|eapply blur_done; eassumption].
  - destruct (blur_nth _ _ _ _ HF H1) as (e1 & N1 & B1). destruct (blur_nth _ _ _ _ HF H2) as (e2 & N2 & B2).
    destruct B1 as [E|(_ & x & _ & E)]; [subst e1|discriminate].
    destruct B2 as [E|(_ & x & _ & E)]; [subst e2|discriminate].
    eapply hb_atomic; eassumption.
  - eapply hb_trans; eassumption.
Qed.

End Lies.

Lemma blur_none tr tr' : Forall2 (blur false) tr tr' -> tr' = tr.
Proof. intro H. induction H as [|a b l l' [->|(E & _)] _ IH]; [reflexivity|congruence|discriminate]. Qed.

Section SlyAdequacy.
Context {Gr : grain}.
Context {P T R : Type}.
Variable body : P -> cmd P T unit.
Variables (Dm D : nat) (lax : bool) (M : Z) (R0 : cells).
Hypothesis R0fin : exists l, (forall i, R0 i -> In i l) /\ Z.of_nat (length l) < two64.

Definition QY : R -> gst T -> Prop := QMS (fun _ _ => True).
Notation YP m := (yp body Dm lax m D QY).
Notation YPT m := (yp body Dm lax m Dm QTS).
Notation GGI := (@GG Gr T False M R0).

(** Invariant: safe for [m] more steps. *)
Definition YINV (m : nat) (tr : list event) (s : st P T R) : Prop :=
  exists gm (pool : list (cmd P T unit * gst T)) deps,
    YP m (main s) gm /\ Forall (fun e => YPT m (fst e) (snd e)) pool /\
    thr s = map fst pool /\ GGI gm (map snd pool) deps (sh s) /\ HB tr (gm :: map snd pool).

Definition YNXT (m : nat) (tr : list event) (e : event) (s : st P T R) : Prop :=
  exists e', blur lax e e' /\ YINV m (tr ++ [e']) s.

Lemma YNXT_same m tr e s : YINV m (tr ++ [e]) s -> YNXT m tr e s.
Proof. intro H. exists e. split; [left; reflexivity|exact H]. Qed.

Lemma YP_down m pool : Forall (fun e => YPT (S m) (fst e) (snd e)) pool ->
  Forall (fun e => YPT m (fst e) (snd e)) pool.
Proof. apply Forall_impl. intros e. apply yp_down. Qed.

(** *** The caller takes a step on its own *)
Lemma yinv_main mm m s m' s' fs ts tr :
  exec_local body m s = Some (m', s', fs) ->
  YINV (S mm) tr (St m ts s) -> YNXT mm tr (label 0 (length ts) m) (St m' (ts ++ fs) s').
Proof.
  intros He (gm & pool & deps & HW & HP & Ht & HG & HH). simpl main in *; simpl thr in *; simpl sh in *. subst ts.
  pose proof (gg_wfm _ _ _ _ _ _ HG) as (Hdr & HrR & Hag & Hsn & Hwm).
  pose proof (main_mode _ _ _ _ HG) as Hmm.
  assert (HX := GG_excl _ _ _ _ _ _ _ HG).
  assert (Hfin : forall e mn gn dd sn, YP mm mn gn -> GGI gn (map snd pool) dd sn ->
            gstep e (gm :: map snd pool) (gn :: map snd pool) ->
            YNXT mm tr e (St mn (map fst pool ++ []) sn)).
  { intros e mn gn dd sn H1 H2 H3. apply YNXT_same. exists gn, pool, dd. simpl. rewrite app_nil_r.
    split; [exact H1|]. split; [apply YP_down; exact HP|]. split; [reflexivity|]. split; [exact H2|].
    eapply HB_step; eauto. }
  assert (Hstay : forall e gn, dom gn = dom gm -> rd gn = rd gm -> sameKind (md gm) (md gn) ->
    (e = EvStep 0 \/ e = EvAtomic 0 \/ (exists i, e = EvRead 0 i /\ live gm /\ rd gm i) \/
     (exists i, e = EvWrite 0 i /\ live gm /\ dom gm i)) -> gstep e (gm :: map snd pool) (gn :: map snd pool)).
  { intros e gn E1 E2 E3 E4. eapply (gs_stay e O gm gn); auto using upd1_main. }
  unfold exec_local in He. unfold label. rewrite map_length.
  destruct HW as [Hd HW]. destruct (view m) eqn:Hv; try discriminate He; inversion He; subst; clear He.
  - eapply Hfin; [exact HW|exact HG|]. apply Hstay; auto using sameKind_refl.
  - destruct HW as (Hl & Hi & HW).
    assert (HW' : YP mm (k (mem s' i)) gm).
    { apply HW. intros _ (j & Ej). rewrite Ej in Hmm. contradiction. }
    destruct Hi as [[El Hlent]|Hi].
    + exists (EvStep 0). split; [right; eauto|]. exists gm, pool, deps. simpl main; simpl thr; simpl sh. rewrite app_nil_r.
      split; [exact HW'|]. split; [apply YP_down; exact HP|]. split; [reflexivity|]. split; [exact HG|].
      eapply HB_step; [exact HX| |exact HH]. apply Hstay; auto using sameKind_refl.
    + eapply Hfin; [exact HW'|exact HG|]. apply Hstay; eauto 8 using sameKind_refl.
  - destruct HW as (Hl & Hi & HW). eapply Hfin; [exact HW| |apply Hstay; eauto 8 using sameKind_refl].
    eapply (GG_local_main False M R0 gm); [exact HG|simpl; auto..].
    + intros j Hj. unfold upd; simpl. destruct (j =? i); auto.
    + intros j Hj. unfold upd. destruct (Z.eqb_spec j i); [subst; contradiction|reflexivity].
  - destruct HW as (Hl & HW). eapply Hfin; [exact HW|exact HG|apply Hstay; auto using sameKind_refl].
  - (* fork *)
    destruct HW as [(a & d1 & P1 & P2 & Em & Ec & Ej & Hd1 & Hn1 & Hn2 & HPr & HWc & HW)
                   |(a & dj & d2 & r2 & post & Em & Ea & Ec & Et & Ej & Hdj & Hd2 & Hr2 & Hne & Hdec & HWc & HW)].
    + set (gc := Gst d1 d1 (val gm) (MAct (Act None P1 false false None)) 0) in *.
      apply YNXT_same. exists (Gst (minus (dom gm) d1) (minus (rd gm) d1) (val gm) (MAct (forked a P2)) (seen gm)),
        (pool ++ [(body p, gc)]), deps. simpl main; simpl thr; simpl sh.
      split; [exact HW|]. split; [apply Forall_app; split; [apply YP_down; exact HP|constructor; auto]|].
      split; [rewrite map_app; reflexivity|]. split.
      * rewrite map_app. simpl. eapply GG_perm; [apply Permutation_cons_append|].
        eapply GG_fork_main; eauto.
      * eapply HB_step; [exact HX| |exact HH]. rewrite map_app. simpl map.
        replace (S (length pool)) with (length (gm :: map snd pool)) by (simpl; rewrite map_length; reflexivity).
        eapply (gs_fork O gm _ gc); [reflexivity|intro u; apply nth_fork_main|intros i [H _]; exact H|intros i [H _]; exact H
          |exact Hd1|intros i H; apply Hdr, Hd1, H|reflexivity|left; eexists; reflexivity|rewrite Em; exact I].
    + set (gc := Gst d2 r2 (val gm) (MPart (Join dj post)) 0) in *.
      apply YNXT_same. exists (Gst (minus (dom gm) dj) (minus (rd gm) d2) (val gm)
                     (MAct (setjoin a (Some (Join dj post)))) (seen gm)),
        (pool ++ [(body p, gc)]), deps. simpl main; simpl thr; simpl sh.
      split; [exact HW|]. split; [apply Forall_app; split; [apply YP_down; exact HP|constructor; auto]|].
      split; [rewrite map_app; reflexivity|]. split.
      * rewrite map_app. simpl. eapply GG_perm; [apply Permutation_cons_append|].
        eapply GG_fork_part; eauto.
      * eapply HB_step; [exact HX| |exact HH]. rewrite map_app. simpl map.
        replace (S (length pool)) with (length (gm :: map snd pool)) by (simpl; rewrite map_length; reflexivity).
        eapply (gs_fork O gm _ gc); [reflexivity|intro u; apply nth_fork_main|intros i [H _]; exact H|intros i [H _]; exact H
          |intros i H; apply Hdj, Hr2, Hd2, H|intros i H; apply Hdr, Hdj, Hr2, H|reflexivity
          |right; split; [reflexivity|]; exists (Join dj post); split; [reflexivity|exact Hdj]|rewrite Em; exact I].
  - destruct HW as (Hl & HW). pose proof (gg_maxg _ _ _ _ _ _ HG) as Hmg.
    eapply Hfin; [apply HW; lia|apply GG_seen_main; [exact HG|lia]|].
    apply Hstay; auto using sameKind_refl.
  - destruct HW as (a & Em & Ec & Ej & HW).
    eapply Hfin; [apply HW|apply GG_loadgor_main; eauto|].
    apply Hstay; auto. simpl. rewrite Em. exact I.
  - destruct HW as [(-> & a & Em & Ec & Et & Ej & H2 & HW)|(-> & a & Em & Ec & Ej & HPr & HW)].
    + eapply Hfin; [apply HW|apply GG_inc_main; eauto|].
      apply Hstay; auto. simpl. rewrite Em. exact I.
    + destruct (GG_dec_main False M R0 R0fin gm a _ _ _ HG Em Ec Ej HPr) as (Hz & deps' & HG').
      set (z := (ngor s + (two64 - 1)) mod two64) in *.
      eapply Hfin; [apply HW; exact Hz|exact HG'|].
      eapply (gs_dec O gm); [reflexivity|apply upd1_main|intros i []|intros i []|rewrite Em; exact I| | |].
      * pose proof (main_mode _ _ _ _ HG') as Hmm'. simpl.
        pose proof (gg_phase _ _ _ _ _ _ HG) as Hph. unfold phase in Hph. rewrite Em in Hph.
        destruct (a_main a) eqn:Ea; [|contradiction]. unfold signed_off. rewrite Ea.
        destruct (Z.eqb_spec z 0); [|reflexivity].
        intros u h Hu1 Hu2 Hh. destruct u as [|u]; [congruence|]. simpl in Hh.
        eapply (dec_main_others M R0 gm a _ _ _ _ _ _ HG Em Ej HG'); [|eapply nth_error_In; exact Hh].
        simpl. unfold signed_off. rewrite Ea. destruct (Z.eqb_spec z 0); [eauto|contradiction].
      * simpl. unfold signed_off. pose proof (gg_phase _ _ _ _ _ _ HG) as Hph. unfold phase in Hph. rewrite Em in Hph.
        destruct (a_main a); [|contradiction]. destruct (z =? 0); discriminate.
      * reflexivity.
  - destruct HW as (Pr & Em & Hs & Hne & HW). eapply Hfin; [exact HW|eapply GG_makesv; eauto|].
    apply Hstay; auto. simpl. rewrite Em. exact I.
Qed.

(** *** A started goroutine takes a step on its own *)
Lemma yinv_thr mm m l1 c l2 s c' s' fs tr :
  exec_local body c s = Some (c', s', fs) ->
  YINV (S mm) tr (St m (l1 ++ c :: l2) s) ->
  YNXT mm tr (label (S (length l1)) (length (l1 ++ c :: l2)) c) (St m (l1 ++ c' :: l2 ++ fs) s').
Proof.
  intros He (gm & pool & deps & HW & HP & Ht & HG & HH). simpl main in *; simpl thr in *; simpl sh in *.
  destruct (spool_split _ _ _ _ Ht) as (p1 & e & p2 & -> & -> & -> & ->). clear Ht.
  assert (HX := GG_excl _ _ _ _ _ _ _ HG).
  apply Forall_mid in HP. destruct HP as [HWe HP].
  assert (HG0 := HG). rewrite map_app in HG0; simpl in HG0. apply GG_mid in HG0. rewrite <- map_app in HG0.
  rewrite map_app in HH, HX; simpl in HH, HX.
  set (g := snd e) in *.
  pose proof (gg_wf _ _ _ _ _ _ HG0) as Hwf. inversion Hwf as [|? ? Hwg _]; subst.
  destruct Hwg as (Hdr & HrR & Hag & Hsn & Hwm).
  pose proof (pool_mode _ _ _ _ g HG0 (or_introl eq_refl)) as Hok.
  assert (HPd := YP_down _ _ HP).
  assert (Hfin : forall ev cc gn dd sn, YPT mm cc gn -> GGI gm (gn :: map snd (p1 ++ p2)) dd sn ->
            gstep ev (gm :: map snd p1 ++ g :: map snd p2) (gm :: map snd p1 ++ gn :: map snd p2) ->
            YNXT mm tr ev (St m (map fst p1 ++ cc :: map fst p2 ++ []) sn)).
  { intros ev cc gn dd sn H1 H2 H3. apply YNXT_same. exists gm, (p1 ++ (cc, gn) :: p2), dd. simpl main; simpl thr; simpl sh.
    split; [apply yp_down; exact HW|]. split; [apply Forall_mid; split; auto|].
    split; [rewrite map_app, app_nil_r; reflexivity|]. split.
    - rewrite map_app. simpl. apply GG_mid. rewrite <- map_app. exact H2.
    - rewrite map_app. simpl. eapply HB_step; eauto. }
  assert (Hlen : S (length (map fst p1)) = S (length (map snd p1))) by (rewrite !map_length; reflexivity).
  rewrite Hlen.
  assert (Hnth : nth_error (gm :: map snd p1 ++ g :: map snd p2) (S (length (map snd p1))) = Some g).
  { simpl. rewrite nth_error_app2 by lia. rewrite Nat.sub_diag. reflexivity. }
  assert (Hstay : forall ev gn, dom gn = dom g -> rd gn = rd g -> sameKind (md g) (md gn) ->
    (ev = EvStep (S (length (map snd p1))) \/ ev = EvAtomic (S (length (map snd p1))) \/
     (exists i, ev = EvRead (S (length (map snd p1))) i /\ live g /\ rd g i) \/
     (exists i, ev = EvWrite (S (length (map snd p1))) i /\ live g /\ dom g i)) ->
    gstep ev (gm :: map snd p1 ++ g :: map snd p2) (gm :: map snd p1 ++ gn :: map snd p2)).
  { intros ev gn E1 E2 E3 E4. eapply (gs_stay ev (S (length (map snd p1))) g gn); auto using upd1_pool. }
  unfold exec_local in He. unfold label.
  destruct HWe as [Hd HWe]. destruct (view (fst e)) eqn:Hv; try discriminate He; inversion He; subst; clear He.
  - eapply Hfin; [exact HWe|exact HG0|]. apply Hstay; auto using sameKind_refl.
  - destruct HWe as (Hl & Hi & HWe). destruct Hi as [[_ (a & j & Em & Ej)]|Hi].
    { unfold pool_ok in Hok. rewrite Em in Hok. destruct Hok; congruence. }
    eapply Hfin; [apply HWe; intros _ _; apply Hag; exact Hi|exact HG0|].
    apply Hstay; eauto 8 using sameKind_refl.
  - destruct HWe as (Hl & Hi & HWe). eapply Hfin; [exact HWe| |apply Hstay; eauto 8 using sameKind_refl].
    eapply (GG_local_pool False M R0 gm g); [exact HG0|simpl; auto..].
    + intros j Hj. unfold upd; simpl. destruct (j =? i); auto.
    + intros j Hj. unfold upd. destruct (Z.eqb_spec j i); [subst; contradiction|reflexivity].
    + intro Hx. unfold live in Hl. rewrite Hx in Hl. contradiction.
  - destruct HWe as (Hl & HWe). eapply Hfin; [exact HWe|exact HG0|apply Hstay; auto using sameKind_refl].
  - (* fork *)
    destruct HWe as [(a & d1 & P1 & P2 & Em & Ec & Ej & Hd1 & Hn1 & Hn2 & HPr & HWc & HWe)
                   |(a & dj & d2 & r2 & post & Em & Ea & Ec & Et & Ej & Hdj & Hd2 & Hr2 & Hne & Hdec & HWc & HWe)].
    2:{ unfold pool_ok in Hok. rewrite Em in Hok. destruct Hok; congruence. }
    set (gc := Gst d1 d1 (val g) (MAct (Act None P1 false false None)) 0) in *.
    set (gn := Gst (minus (dom g) d1) (minus (rd g) d1) (val g) (MAct (forked a P2)) (seen g)) in *.
    apply YNXT_same. exists gm, (p1 ++ (c', gn) :: p2 ++ [(body p, gc)]), deps. simpl main; simpl thr; simpl sh.
    split; [apply yp_down; exact HW|]. split.
    { apply Forall_mid. split; [exact HWe|]. rewrite app_assoc. apply Forall_app; split; auto. }
    split; [rewrite map_app; simpl; rewrite map_app; reflexivity|]. split.
    + rewrite map_app. simpl. rewrite map_app. apply GG_mid. simpl. rewrite app_assoc, <- map_app.
      eapply GG_perm; [apply perm_skip; apply Permutation_cons_append|].
      eapply GG_fork_pool; eauto.
    + eapply HB_step; [exact HX| |exact HH]. rewrite map_app. simpl map. rewrite map_app. simpl map.
      replace (S (length (map fst p1 ++ fst e :: map fst p2)))
        with (length (gm :: map snd p1 ++ g :: map snd p2))
        by (simpl; rewrite !app_length; simpl; rewrite !map_length; reflexivity).
      eapply (gs_fork (S (length (map snd p1))) g gn gc);
        [exact Hnth|intro u; apply nth_fork_pool|intros i [H _]; exact H|intros i [H _]; exact H
          |exact Hd1|intros i H; apply Hdr, Hd1, H|reflexivity|left; eexists; reflexivity|rewrite Em; exact I].
  - destruct HWe as (Hl & HWe). pose proof (gg_maxg _ _ _ _ _ _ HG) as Hmg.
    eapply Hfin; [apply HWe; lia|eapply GG_seen_pool; [exact HG0|lia]|].
    apply Hstay; auto using sameKind_refl.
  - destruct HWe as (a & Em & Ec & Ej & HWe).
    eapply Hfin; [apply HWe|eapply GG_loadgor_pool; eauto|].
    apply Hstay; auto. simpl. rewrite Em. exact I.
  - destruct HWe as [(-> & a & Em & Ec & Et & Ej & H2 & HWe)|(-> & a & Em & Ec & Ej & HPr & HWe)].
    + eapply Hfin; [apply HWe|eapply GG_inc_pool; eauto|].
      apply Hstay; auto. simpl. rewrite Em. exact I.
    + destruct (GG_dec_pool False M R0 R0fin gm g a _ _ _ HG0 Em Ec Ej HPr) as (Hz & deps' & HG').
      set (z := (ngor s + (two64 - 1)) mod two64) in *.
      assert (Ea : a_main a = None) by (unfold pool_ok in Hok; rewrite Em in Hok; apply Hok).
      eapply Hfin; [apply HWe; exact Hz|exact HG'|].
      eapply (gs_dec (S (length (map snd p1))) g); [exact Hnth|apply upd1_pool|intros i []|intros i []|rewrite Em; exact I| | |].
      * simpl. unfold signed_off. rewrite Ea. destruct (Z.eqb_spec z 0) as [Ez|Ez]; [|discriminate].
        intros u h Hu1 Hu2 Hh. destruct u as [|u]; [congruence|]. simpl in Hh.
        assert (Hin : In h (map snd (p1 ++ p2))).
        { rewrite map_app. clear - Hh Hu1. apply nth_error_split in Hh. destruct Hh as (q1 & q2 & E & El).
          assert (Hne : u <> length (map snd p1)) by congruence. subst u. clear Hu1.
          revert q1 E Hne. generalize (map snd p1). intro L. induction L as [|x L IH]; intros [|y q1] E Hne; simpl in *.
          - congruence.
          - injection E as _ E. rewrite E. apply in_elt.
          - inversion E; subst. left; reflexivity.
          - inversion E; subst. right. apply (IH q1); [assumption|congruence]. }
        eapply last_others; [exact HG'| |exact Hin]. simpl. unfold signed_off. rewrite Ea, Ez. reflexivity.
      * intros _. discriminate.
      * simpl. unfold signed_off. rewrite Ea. intro Pf. destruct (z =? 0); discriminate.
  - destruct HWe as (Pr & Em & _). unfold pool_ok in Hok. rewrite Em in Hok. contradiction.
Qed.

Lemma ypool_no_recv mm pool deps s gm e k' :
  GGI gm (map snd pool) deps s -> In e pool -> YPT (S mm) (fst e) (snd e) -> view (fst e) = HRecv k' -> False.
Proof.
  intros HG Hin [_ HW] Hv.
  assert (Hok : pool_ok (snd e)) by (eapply pool_mode; [exact HG|]; apply in_map; exact Hin).
  unfold pool_ok in Hok. rewrite Hv in HW. destruct HW as [(a & j & Em & Ej & _)|(Pf & Em & _)]; rewrite Em in Hok.
  - destruct Hok; congruence.
  - exact Hok.
Qed.

Theorem yinv_tstep mm e tr s s' : tstep body e s s' -> YINV (S mm) tr s -> YNXT mm tr e s'.
Proof.
  intros Hs HI. destruct Hs.
  - eapply yinv_main; eauto.
  - eapply yinv_thr; eauto.
  - (* goroutine -> caller *)
    destruct HI as (gm & pool & deps & HW & HP & Ht & HG & HH). simpl main in *; simpl thr in *; simpl sh in *.
    destruct (spool_split _ _ _ _ Ht) as (p1 & e & p2 & -> & -> & -> & ->). clear Ht.
    assert (HX := GG_excl _ _ _ _ _ _ _ HG).
    apply Forall_mid in HP. destruct HP as [HWe HP].
    assert (HG0 := HG). rewrite map_app in HG0; simpl in HG0. apply GG_mid in HG0. rewrite <- map_app in HG0.
    rewrite map_app in HH, HX; simpl in HH, HX.
    assert (Hnth : nth_error (gm :: map snd p1 ++ snd e :: map snd p2) (S (length (map snd p1))) = Some (snd e)).
    { simpl. rewrite nth_error_app2 by lia. rewrite Nat.sub_diag. reflexivity. }
    assert (Hlen : length (map fst p1) = length (map snd p1)) by (rewrite !map_length; reflexivity).
    rewrite Hlen.
    assert (Hok : pool_ok (snd e)) by (eapply pool_mode; [exact HG0|]; left; reflexivity).
    destruct HW as [_ HW]. rewrite H0 in HW. destruct HWe as [_ HWe]. rewrite H in HWe.
    destruct HW as [(a & j & Em & Ej & HW)|(Pf & Em & HW)];
      destruct HWe as [(j0 & Em0 & Hp0 & HWe)|(Em0 & HWe)].
    + destruct (GG_join False M R0 gm (snd e) a j j0 _ _ _ v HG0 Em Ej Em0 Hp0) as (Ha & Hp & HG').
      assert (j0 = j) as ->.
      { pose proof (gg_vsm _ _ _ _ _ _ HG0) as Hv. inversion Hv as [|? ? Hv1 _]; subst.
        unfold vs_main in Hv1. rewrite Em0 in Hv1. destruct Hv1 as (Hv1 & _). unfold joined in Hv1.
        rewrite Em in Hv1. congruence. }
      apply YNXT_same. exists (Gst (union (dom gm) (j_D j)) (union (rd gm) (j_D j)) (mem s) (MAct (setjoin a None)) (seen gm)),
        (p1 ++ (k, noown (snd e) MDone) :: p2), deps. simpl main; simpl thr; simpl sh.
      split; [apply HW; auto|]. split; [apply Forall_mid; split; [exact HWe|apply YP_down; exact HP]|].
      split; [rewrite map_app; reflexivity|]. split.
      * rewrite map_app. simpl. apply GG_mid. rewrite <- map_app. exact HG'.
      * rewrite map_app. simpl. eapply HB_step; [exact HX| |exact HH].
        eapply (gs_join _ (snd e) gm (Gst (union (dom gm) (j_D j)) (union (rd gm) (j_D j)) (mem s)
                  (MAct (setjoin a None)) (seen gm)) (noown (snd e) MDone));
          [reflexivity|exact Hnth|discriminate|exact Em0|reflexivity|rewrite Em; exact I|intros i Hi; exact Hi
          |intros i Hi; exact Hi| | | |intro u; apply (nth_two gm _ (snd e))];
          [reflexivity|intros i []|intros i []].
    + exfalso. pose proof (gg_phase _ _ _ _ _ _ HG0) as Hph. unfold phase in Hph. rewrite Em in Hph.
      destruct (a_main a); [|contradiction]. destruct Hph as (_ & _ & Hl). rewrite sumf_cons in Hl.
      unfold last1 at 1 in Hl. rewrite Em0 in Hl.
      pose proof (sumf_nonneg last1 (map snd (p1 ++ p2)) last1_nonneg). lia.
    + exfalso. pose proof (gg_vsm _ _ _ _ _ _ HG0) as Hv. inversion Hv as [|? ? Hv1 _]; subst.
      unfold vs_main in Hv1. rewrite Em0 in Hv1. destruct Hv1 as (Hv1 & _). unfold joined in Hv1.
      rewrite Em in Hv1. discriminate.
    + apply YNXT_same. exists (setmd gm (MFinal Pf)), (p1 ++ (k, noown (snd e) MDone) :: p2), []. simpl main; simpl thr; simpl sh.
      split; [apply HW|]. split; [apply Forall_mid; split; [exact HWe|apply YP_down; exact HP]|].
      split; [rewrite map_app; reflexivity|]. split.
      * rewrite map_app. simpl. apply GG_mid. rewrite <- map_app. eapply GG_finish; eauto.
      * rewrite map_app. simpl. eapply HB_step; [exact HX| |exact HH].
        eapply (gs_final _ (snd e) gm (setmd gm (MFinal Pf)) (noown (snd e) MDone) Pf);
          [reflexivity|exact Hnth|discriminate|exact Em0|reflexivity|exists Pf; exact Em|intros i Hi; exact Hi
          |intros i Hi; exact Hi|reflexivity|intros i []|intros i []|intro u; apply (nth_two gm _ (snd e))].
  - (* caller never sends *)
    exfalso. destruct HI as (gm & pool & deps & HW & HP & Ht & HG & HH). simpl in *.
    pose proof (main_mode _ _ _ _ HG) as Hmm. destruct HW as [_ HW]. rewrite H in HW.
    destruct HW as [(j & Em & _)|(Em & _)]; rewrite Em in Hmm; exact Hmm.
  - exfalso. destruct HI as (gm & pool & deps & HW & HP & Ht & HG & HH). simpl in *.
    rewrite app_comm_cons, app_assoc in Ht.
    destruct (spool_split _ _ _ _ Ht) as (p1 & e & p2 & -> & _ & -> & _).
    eapply (ypool_no_recv mm); [exact HG| | |exact H0]; [apply in_elt|].
    rewrite Forall_forall in HP. apply (HP e). apply in_elt.
  - exfalso. destruct HI as (gm & pool & deps & HW & HP & Ht & HG & HH). simpl in *.
    destruct (spool_split _ _ _ _ Ht) as (p1 & e & p2 & -> & _ & -> & _).
    eapply (ypool_no_recv mm); [exact HG| | |exact H]; [apply in_elt|].
    rewrite Forall_forall in HP. apply (HP e). apply in_elt.
  - (* outdated values of the counter *)
    destruct HI as (gm & pool & deps & HW & HP & Ht & HG & HH). simpl main in *; simpl thr in *; simpl sh in *. subst ts.
    assert (HX := GG_excl _ _ _ _ _ _ _ HG).
    destruct HW as [_ HW]. rewrite H in HW. destruct HW as (a & Em & Ec & Ej & HW).
    apply YNXT_same. exists (setmd gm (MAct (settok a (z <? seen gm)))), pool, deps. simpl main; simpl thr; simpl sh.
    split; [apply HW|]. split; [apply YP_down; exact HP|]. split; [reflexivity|].
    split; [apply GG_stale_main; auto|]. eapply HB_step; [exact HX| |exact HH].
    eapply (gs_stay _ O gm); [reflexivity|apply upd1_main|reflexivity|reflexivity| |auto].
    simpl. rewrite Em. exact I.
  - destruct HI as (gm & pool & deps & HW & HP & Ht & HG & HH). simpl main in *; simpl thr in *; simpl sh in *.
    destruct (spool_split _ _ _ _ Ht) as (p1 & e & p2 & -> & -> & -> & ->). clear Ht.
    assert (HX := GG_excl _ _ _ _ _ _ _ HG).
    apply Forall_mid in HP. destruct HP as [HWe HP].
    assert (HG0 := HG). rewrite map_app in HG0; simpl in HG0. apply GG_mid in HG0. rewrite <- map_app in HG0.
    rewrite map_app in HH, HX; simpl in HH, HX.
    assert (Hlen : S (length (map fst p1)) = S (length (map snd p1))) by (rewrite !map_length; reflexivity).
    rewrite Hlen.
    destruct HWe as [_ HWe]. rewrite H in HWe. destruct HWe as (a & Em & Ec & Ej & HWe).
    set (gn := setmd (snd e) (MAct (settok a (z <? seen (snd e))))).
    apply YNXT_same. exists gm, (p1 ++ (k z, gn) :: p2), deps. simpl main; simpl thr; simpl sh.
    split; [apply yp_down; exact HW|]. split; [apply Forall_mid; split; [apply HWe|apply YP_down; exact HP]|].
    split; [rewrite map_app; reflexivity|]. split.
    + rewrite map_app. simpl. apply GG_mid. rewrite <- map_app. apply GG_stale_pool; auto.
    + rewrite map_app. simpl. eapply HB_step; [exact HX| |exact HH].
      eapply (gs_stay _ (S (length (map snd p1))) (snd e) gn); [|apply upd1_pool|reflexivity|reflexivity| |auto].
      * simpl. rewrite nth_error_app2 by lia. rewrite Nat.sub_diag. reflexivity.
      * unfold gn. simpl. rewrite Em. exact I.
Qed.

Lemma yinv_estep mm tr s s' : estep M R0 s s' -> YINV mm tr s -> YINV mm tr s'.
Proof.
  intros Hs (gm & pool & deps & HW & HP & Ht & HG & HH). destruct Hs. simpl in *.
  exists gm, pool, deps. simpl. split; [exact HW|]. split; [exact HP|]. split; [exact Ht|].
  split; [apply GG_env; auto|exact HH].
Qed.


(** *** A read that delivers anything *)
Lemma yinv_lie mm t x m ts ng mg ch w w1 s' tr : lax = true \/ t = O ->
  tstep body (EvRead t x) (St m ts (Sh w1 ng mg ch)) s' ->
  YINV (S mm) tr (St m ts (Sh w ng mg ch)) ->
  YNXT mm tr (EvRead t x) (St (main s') (thr s') (Sh w ng mg ch)).
Proof.
  intros Hlax Hs (gm & pool & deps & HW & HP & Ht & HG & HH). simpl main in *; simpl thr in *; simpl sh in *.
  pose proof (main_mode _ _ _ _ HG) as Hmm. assert (HX := GG_excl _ _ _ _ _ _ _ HG).
  remember (St m ts (Sh w1 ng mg ch)) as s eqn:Es. remember (EvRead t x) as e eqn:Ee.
  destruct Hs as [m1 ts1 s1 m' s' fs He|m1 l1 c l2 s1 c' s' fs He| | | | | |]; try discriminate Ee; inversion Es; subst; clear Es.
  - rewrite Ee. unfold label in Ee. unfold exec_local in He. destruct HW as [_ HW]. destruct (view m) eqn:Ev; try discriminate Ee; try discriminate He.
    inversion Ee; subst. inversion He; subst. clear Ee He. simpl main; simpl thr. rewrite app_nil_r.
    destruct HW as (Hl & Hi & HW).
    assert (HW' : YP mm (k (w1 x)) gm).
    { apply HW. intros _ (j & Ej). rewrite Ej in Hmm. contradiction. }
    assert (Hst : forall e, (e = EvStep 0 \/ e = EvRead 0 x /\ rd gm x) -> YINV mm (tr ++ [e]) (St (k (w1 x)) (map fst pool) (Sh w ng mg ch))).
    { intros e He. exists gm, pool, deps. simpl main; simpl thr; simpl sh.
      split; [exact HW'|]. split; [apply YP_down; exact HP|]. split; [reflexivity|]. split; [exact HG|].
      eapply HB_step; [exact HX| |exact HH]. eapply (gs_stay e O gm gm); auto using upd1_main, sameKind_refl.
      destruct He as [->|[-> Hi']]; eauto 8. }
    destruct Hi as [[El Hlent]|Hi].
    + exists (EvStep 0). split; [right; eauto|]. apply Hst. auto.
    + apply YNXT_same. apply Hst. auto.
  - rewrite Ee. unfold label in Ee. unfold exec_local in He.
    match goal with H : _ ++ _ :: _ = map fst _ |- _ => rename H into Ht end.
    destruct (spool_split _ _ _ _ Ht) as (p1 & e & p2 & -> & -> & -> & ->). clear Ht.
    apply Forall_mid in HP. destruct HP as [HWe HP].
    assert (HG0 := HG). rewrite map_app in HG0; simpl in HG0. apply GG_mid in HG0. rewrite <- map_app in HG0.
    rewrite map_app in HH, HX; simpl in HH, HX.
    pose proof (pool_mode _ _ _ _ (snd e) HG0 (or_introl eq_refl)) as Hok.
    destruct HWe as [_ HWe]. destruct (view (fst e)) eqn:Ev; try discriminate Ee; try discriminate He.
    inversion Ee; subst. inversion He; subst. clear Ee He. simpl main; simpl thr. rewrite app_nil_r.
    destruct HWe as (Hl & Hi & HWe). destruct Hi as [[_ (a & j & Em & Ej)]|Hi].
    { unfold pool_ok in Hok. rewrite Em in Hok. destruct Hok; congruence. }
    assert (El : lax = true) by (destruct Hlax as [E|E]; [exact E|discriminate E]).
    apply YNXT_same. exists gm, (p1 ++ (k (w1 x), snd e) :: p2), deps. simpl main; simpl thr; simpl sh.
    split; [apply yp_down; exact HW|]. split.
    { apply Forall_mid. split; [apply HWe; intro E; congruence|apply YP_down; exact HP]. }
    split; [rewrite map_app; reflexivity|]. split.
    + rewrite map_app. simpl. rewrite map_app in HG. exact HG.
    + rewrite map_app. simpl. eapply HB_step; [exact HX| |exact HH]. rewrite map_length.
      eapply (gs_stay _ (S (length p1)) (snd e) (snd e)).
      * simpl. rewrite nth_error_app2 by (rewrite map_length; lia). rewrite map_length, Nat.sub_diag. reflexivity.
      * replace (S (length p1)) with (S (length (map snd p1))) by (rewrite map_length; reflexivity). apply upd1_pool.
      * reflexivity.
      * reflexivity.
      * apply sameKind_refl.
      * eauto 8.
Qed.

Theorem yinv_lstep mm e tr s s' : lstep body lax e s s' -> YINV (S mm) tr s -> YNXT mm tr e s'.
Proof. intros [e0 s0 s1 H|t x m ts ng mg ch w w1 s1 Hl H] HI; [eapply yinv_tstep; eauto|eapply yinv_lie; eauto]. Qed.

Variables (c0 : cmd P T R) (m0 : Z -> T) (mg0 : Z) (md0 : mode T).
Hypothesis Hmg0 : 0 <= mg0 <= M.
Hypothesis Hmd0 : md0 = MSeq \/ md0 = MInit.
Hypothesis HW0 : forall m, YP m c0 (Gst R0 R0 m0 md0 0).

Theorem yreach_inv tr s : lexec body lax M R0 tr (start c0 m0 mg0) s -> forall m, exists tr', Forall2 (blur lax) tr tr' /\ YINV m tr' s.
Proof.
  intro H. remember (start c0 m0 mg0) as s0 eqn:E. induction H as [s|tr e s s1 s2 H IH Hs|tr s s1 s2 H IH Hs]; subst; intro mm.
  - exists []. split; [constructor|]. exists (Gst R0 R0 m0 md0 0), [], []. simpl. split; [apply HW0|]. split; [constructor|].
    split; [reflexivity|]. split; [|apply HB_nil].
    constructor; simpl; auto.
    + split; [auto|]. split; [auto|]. split; [intros i Hi; reflexivity|]. split; [simpl; lia|].
      unfold wf_md; simpl. destruct Hmd0 as [-> | ->]; exact I.
    + unfold phase. simpl. destruct Hmd0 as [-> | ->]; auto.
  - destruct (IH eq_refl (S mm)) as (tr' & HF & HI). destruct (yinv_lstep mm e tr' s1 s2 Hs HI) as (e' & He & HI').
    exists (tr' ++ [e']). split; [|exact HI']. apply Forall2_app; [exact HF|]. constructor; [exact He|constructor].
  - destruct (IH eq_refl mm) as (tr' & HF & HI). exists tr'. split; [exact HF|]. eapply yinv_estep; eauto.
Qed.

(** ** Consequences *)

Theorem yad_no_data_race tr s : lexec body lax M R0 tr (start c0 m0 mg0) s ->
  exists tr', Forall2 (blur lax) tr tr' /\ ~ dataRace tr'.
Proof.
  intro H. destruct (yreach_inv tr s H 1) as (tr' & HF & gm & pool & deps & _ & _ & _ & _ & HH).
  exists tr'. split; [exact HF|apply (hb_norace _ _ HH)].
Qed.

End SlyAdequacy.

(** ** Only the reads of the caller deliver anything *)

Section Half.
Context {Gr : grain}.
Context {P T R : Type}.
Variable body : P -> cmd P T unit.
Variables (Dm D : nat) (M : Z) (R0 : cells).
Hypothesis R0fin : exists l, (forall i, R0 i -> In i l) /\ Z.of_nat (length l) < two64.
Variables (c0 : cmd P T R) (m0 : Z -> T) (mg0 : Z) (md0 : mode T).
Hypothesis Hmg0 : 0 <= mg0 <= M.
Hypothesis Hmd0 : md0 = MSeq \/ md0 = MInit.
Hypothesis HW0 : forall m, yp body Dm false m D QY c0 (Gst R0 R0 m0 md0 0).

Notation run := (lexec body false M R0).

Lemma half_inv tr s m : run tr (start c0 m0 mg0) s -> YINV body Dm D false M R0 m tr s.
Proof.
  intro H. destruct (yreach_inv body Dm D false M R0 R0fin c0 m0 mg0 md0 Hmg0 Hmd0 HW0 tr s H m) as (tr' & HF & HI).
  rewrite (blur_none _ _ HF) in HI. exact HI.
Qed.

Theorem half_no_data_race tr s : run tr (start c0 m0 mg0) s -> ~ dataRace tr.
Proof.
  intro H. destruct (half_inv tr s 1 H) as (gm & pool & deps & _ & _ & _ & _ & HH). apply (hb_norace _ _ HH).
Qed.

Theorem half_return_knows tr s r : run tr (start c0 m0 mg0) s -> returned s r ->
  forall n e x w, nth_error tr n = Some e -> touches e x w -> knows tr O n.
Proof.
  intros H Hr n e x w Hn Hto. destruct (half_inv tr s 1 H) as (gm & pool & deps & HW & _ & _ & HG & HH).
  unfold returned in Hr. destruct HW as [_ HW]. rewrite Hr in HW. unfold QY, QMS, QM in HW.
  pose proof (gg_phase _ _ _ _ _ _ HG) as Hph. unfold phase in Hph.
  assert (Hsolo : map snd pool = [] -> knows tr O n).
  { intro E. rewrite E in HH.
    assert (Hd : exists v, doneBy e v) by (destruct Hto as [(_ & v & ->)|(_ & v & ->)]; exists v; reflexivity).
    destruct Hd as (v & Hd). destruct (hb_in _ _ HH _ _ _ Hn Hd) as (g & Hg).
    destruct v as [|v]; [eapply knows_self; eauto|destruct v; discriminate]. }
  destruct (md gm) eqn:Em; try contradiction.
  - apply Hsolo. apply Hph.
  - apply Hsolo. apply Hph.
  - eapply (hb_final _ _ HH); eauto. reflexivity.
Qed.

End Half.
