(** * Adequacy: from the logic to executions of the machine *)

From Coq Require Import List ZArith Lia Bool Permutation.
From Verif Require Import Lang SeqLogic ConcLogic Soundness.
Import ListNotations.
Open Scope Z_scope.
Local Arguments Z.mul : simpl never.
Local Arguments Z.add : simpl never.
Local Arguments Z.sub : simpl never.

Section Adequacy.
Context {Gr : grain}.
Context {P T R : Type}.
Variable body : P -> cmd P T unit.
Variables (Dm D : nat) (Fr : Prop) (M : Z) (R0 : cells) (Qm : R -> nat -> gst T -> Prop).
Hypothesis R0fin : exists l, (forall i, R0 i -> In i l) /\ Z.of_nat (length l) < two64.

Notation WP := (wp body (wpT body Dm) D Qm).
Notation WPT := (wpT body Dm).
Notation GGI := (@GG Gr T Fr M R0).

Record pent := Pent { ec : cmd P T unit; eg : gst T; en : nat }.

Definition total (pool : list pent) : nat := fold_right (fun e a => (en e + a)%nat) O pool.

Lemma total_app p q : total (p ++ q) = (total p + total q)%nat.
Proof. induction p; simpl; unfold total in *; simpl; lia. Qed.

Lemma total_cons e q : total (e :: q) = (en e + total q)%nat.
Proof. reflexivity. Qed.

Definition INV (N k : nat) (s : st P T R) : Prop :=
  exists gm nm pool deps,
    WP nm (main s) gm /\ Forall (fun e => WPT (en e) (ec e) (eg e)) pool /\
    thr s = map ec pool /\ GGI gm (map eg pool) deps (sh s) /\
    (k + nm + total pool <= N)%nat.

Lemma perm_mid {X} (l1 : list X) x l2 : Permutation (l1 ++ x :: l2) (x :: l1 ++ l2).
Proof. symmetry. apply Permutation_middle. Qed.

Lemma GG_mid gm l1 x l2 deps s :
  GGI gm (l1 ++ x :: l2) deps s <-> GGI gm (x :: l1 ++ l2) deps s.
Proof. split; apply GG_perm; [apply perm_mid|symmetry; apply perm_mid]. Qed.

Lemma GG_self gm pool deps s :
  GGI gm pool deps s -> GGI gm pool deps (Sh (mem s) (ngor s) (maxg s) (chans s)).
Proof. destruct s; auto. Qed.

Lemma GG_seen_main gm pool deps s x :
  GGI gm pool deps s -> x <= M -> GGI (setseen gm x) pool deps s.
Proof.
  intros HG Hx. pose proof (gg_wfm _ _ _ _ _ _ HG) as (_ & _ & Hag & _).
  assert (G : GGI (setseen gm x) pool deps (Sh (mem s) (ngor s) (maxg s) (chans s))).
  { apply (GG_local_main Fr M R0 gm); simpl; auto. }
  destruct s; exact G.
Qed.

Lemma GG_seen_pool gm g pool deps s x :
  GGI gm (g :: pool) deps s -> x <= M -> GGI gm (setseen g x :: pool) deps s.
Proof.
  intros HG Hx. pose proof (gg_wf _ _ _ _ _ _ HG) as Hwf. inversion Hwf as [|? ? (_ & _ & Hag & _) _]; subst.
  assert (G : GGI gm (setseen g x :: pool) deps (Sh (mem s) (ngor s) (maxg s) (chans s))).
  { apply (GG_local_pool Fr M R0 gm g); simpl; auto. }
  destruct s; exact G.
Qed.

Lemma pool_split pool l1 c l2 :
  l1 ++ c :: l2 = map ec pool ->
  exists p1 e p2, pool = p1 ++ e :: p2 /\ l1 = map ec p1 /\ c = ec e /\ l2 = map ec p2.
Proof.
  intro H. symmetry in H. apply map_eq_app in H. destruct H as (p1 & p2' & -> & E1 & E2).
  apply map_eq_cons in E2. destruct E2 as (e & p2 & -> & E3 & E4).
  exists p1, e, p2. auto.
Qed.

Lemma Forall_mid {X} (Q : X -> Prop) l1 x l2 : Forall Q (l1 ++ x :: l2) <-> Q x /\ Forall Q (l1 ++ l2).
Proof.
  rewrite !Forall_app. split; intros H.
  - destruct H as [H1 H2]. inversion H2; subst. auto.
  - destruct H as [H1 [H2 H3]]. auto.
Qed.

Lemma main_mode gm pool deps s :
  GGI gm pool deps s -> match md gm with MPart _ | MLast | MDone => False | _ => True end.
Proof. intros [_ _ _ _ _ _ _ H]. unfold phase in H. destruct (md gm); auto. Qed.

Lemma pool_mode gm pool deps s g :
  GGI gm pool deps s -> In g pool -> pool_ok g.
Proof. intros HG Hin. pose proof (gg_pool _ _ _ _ _ _ HG) as H. rewrite Forall_forall in H. auto. Qed.

(** *** The caller takes a step on its own *)
Lemma inv_main m s m' s' fs ts N k :
  exec_local body m s = Some (m', s', fs) ->
  INV N k (St m ts s) -> INV N (S k) (St m' (ts ++ fs) s').
Proof.
  intros He (gm & nm & pool & deps & HW & HP & Ht & HG & Hn). simpl in *. subst ts.
  pose proof (gg_wfm _ _ _ _ _ _ HG) as (Hdr & HrR & Hag & Hsn & Hwm).
  pose proof (main_mode _ _ _ _ HG) as Hmm.
  unfold exec_local in He.
  destruct HW as [a Hd Hv Hq|n' c' Hd Hv En HW|n' i k0 Hd Hv En Hl Hi HW|n' i x k0 Hd Hv En Hl Hi Hz HW
    |n' p k0 Hd Hv En Hl HW|n' k0 Hd Hv En Hl HW|n' k0 a Hd Hv En Em Ec Ej HW|n' k0 Pr Hd Hv En Em Hs Hne HW
    |n' k0 a Hd Hv En Em Ec Et Ej H2 HW|n' k0 a Hd Hv En Em Ec Ej HPr HW
    |n' p k0 a d1 P1 P2 n1 n2 Hd Hv En Em Ec Ej Hd1 Hn1 Hn2 HPr Hnn HWc HW
    |n' p k0 a dj d2 r2 post n1 n2 Hd Hv En Em Ea Ec Et Ej Hdj Hd2 Hr2 Hne Hdec Hnn HWc HW
    |n' v k0 j Hd Hv En Em HPr HW|n' v k0 Hd Hv En Em HW
    |n' k0 a j Hd Hv En Em Ej HW|n' k0 Pf Hd Hv En Em HW];
    rewrite Hv in He; try discriminate He; inversion He; subst; clear He; rewrite ?app_nil_r.
  - exists gm, n', pool, deps. simpl. split; [exact HW|]. split; [exact HP|]. split; [reflexivity|]. split; [exact HG|lia].
  - rewrite <- (Hag i Hi) in HW. exists gm, n', pool, deps. simpl. split; [exact HW|]. split; [exact HP|]. split; [reflexivity|]. split; [exact HG|lia].
  - exists (setval gm (upd (val gm) i x)), n', pool, deps.
    split; [exact HW|]. split; [exact HP|]. split; [reflexivity|]. split; [|lia].
    apply (GG_local_main Fr M R0 gm); simpl; auto.
    + intros j Hj. unfold upd; simpl. destruct (j =? i); auto.
    + intros j Hj. unfold upd. destruct (Z.eqb_spec j i); [subst; contradiction|reflexivity].
  - exists gm, n', pool, deps. simpl. split; [exact HW|]. split; [exact HP|]. split; [reflexivity|]. split; [exact HG|lia].
  - exists (setseen gm (maxg s')), n', pool, deps.
    pose proof (gg_maxg _ _ _ _ _ _ HG) as Hmg.
    split; [apply HW; lia|]. split; [exact HP|]. split; [reflexivity|]. split; [|lia].
    apply GG_seen_main; auto; lia.
  - exists (setmd gm (MAct (settok a (ngor s' <? seen gm)))), n', pool, deps.
    split; [apply HW|]. split; [exact HP|]. split; [reflexivity|]. split; [|lia].
    apply GG_loadgor_main; auto.
  - exists (setmd gm (MAct (Act (Some Pr) Pr false true None))), n', pool, deps.
    split; [apply HW|]. split; [exact HP|]. split; [reflexivity|]. split; [|lia].
    apply GG_makesv; auto.
  - exists (setmd gm (MAct (setcredit a))), n', pool, deps.
    split; [apply HW|]. split; [exact HP|]. split; [reflexivity|]. split; [|lia].
    apply GG_inc_main; auto.
  - destruct (GG_dec_main Fr M R0 R0fin gm a _ _ _ HG Em Ec Ej HPr) as (Hz & deps' & HG').
    exists (noown gm (signed_off a ((ngor s + (two64 - 1)) mod two64))), n', pool, deps'.
    split; [apply HW; exact Hz|]. split; [exact HP|]. split; [reflexivity|]. split; [exact HG'|lia].
  - exists (Gst (minus (dom gm) d1) (minus (rd gm) d1) (val gm) (MAct (forked a P2)) (seen gm)), n2,
      (pool ++ [Pent (body p) (Gst d1 d1 (val gm) (MAct (Act None P1 false false None)) 0) n1]), deps.
    split; [exact HW|]. split; [apply Forall_app; split; auto|].
    split; [simpl; rewrite map_app; reflexivity|]. split.
    + rewrite map_app. simpl. eapply GG_perm; [apply Permutation_cons_append|].
      eapply GG_fork_main; eauto.
    + rewrite total_app, total_cons. simpl. lia.
  - exists (Gst (minus (dom gm) dj) (minus (rd gm) d2) (val gm)
                     (MAct (setjoin a (Some (Join dj post)))) (seen gm)), n2,
      (pool ++ [Pent (body p) (Gst d2 r2 (val gm) (MPart (Join dj post)) 0) n1]), deps.
    split; [exact HW|]. split; [apply Forall_app; split; auto|].
    split; [simpl; rewrite map_app; reflexivity|]. split.
    + rewrite map_app. simpl. eapply GG_perm; [apply Permutation_cons_append|].
      eapply GG_fork_part; eauto.
    + rewrite total_app, total_cons. simpl. lia.
Qed.

(** *** A started goroutine takes a step on its own *)
Lemma inv_thr m l1 c l2 s c' s' fs N k :
  exec_local body c s = Some (c', s', fs) ->
  INV N k (St m (l1 ++ c :: l2) s) -> INV N (S k) (St m (l1 ++ c' :: l2 ++ fs) s').
Proof.
  intros He (gm & nm & pool & deps & HW & HP & Ht & HG & Hn). simpl in *.
  destruct (pool_split _ _ _ _ Ht) as (p1 & e & p2 & -> & -> & -> & ->). clear Ht.
  apply Forall_mid in HP. destruct HP as [[HWe] HP].
  rewrite map_app in HG; simpl in HG. apply GG_mid in HG. rewrite <- map_app in HG.
  set (rest := p1 ++ p2) in *. set (g := eg e) in *.
  pose proof (gg_wf _ _ _ _ _ _ HG) as Hwf. inversion Hwf as [|? ? Hwg _]; subst.
  destruct Hwg as (Hdr & HrR & Hag & Hsn & Hwm).
  pose proof (pool_mode _ _ _ _ g HG (or_introl eq_refl)) as Hok.
  assert (Htot : total (p1 ++ e :: p2) = (en e + total rest)%nat).
  { unfold rest. rewrite !total_app, total_cons. lia. }
  rewrite Htot in Hn. clear Htot Hwf.
  (* how to rebuild the invariant *)
  assert (Fin0 : forall cc gg nn dd ss, WPT nn cc gg -> GGI gm (gg :: map eg rest) dd ss ->
            (S k + nm + nn + total rest <= N)%nat ->
            INV N (S k) (St m (map ec p1 ++ cc :: map ec p2 ++ []) ss)).
  { intros cc gg nn dd ss H1 H2 H3. exists gm, nm, (p1 ++ Pent cc gg nn :: p2), dd. simpl.
    split; [exact HW|]. split; [apply Forall_mid; split; auto|].
    split; [rewrite map_app, app_nil_r; reflexivity|]. split.
    - rewrite map_app. simpl. apply GG_mid. rewrite <- map_app. exact H2.
    - rewrite total_app, total_cons. simpl. unfold rest in H3. rewrite total_app in H3. lia. }
  clearbody g. unfold exec_local in He.
  destruct HWe as [a Hd Hv Hq|n' c0 Hd Hv En HWe|n' i k0 Hd Hv En Hl Hi HWe|n' i x k0 Hd Hv En Hl Hi Hz HWe
    |n' p k0 Hd Hv En Hl HWe|n' k0 Hd Hv En Hl HWe|n' k0 a Hd Hv En Em Ec Ej HWe|n' k0 Pr Hd Hv En Em Hs Hne HWe
    |n' k0 a Hd Hv En Em Ec Et Ej H2 HWe|n' k0 a Hd Hv En Em Ec Ej HPr HWe
    |n' p k0 a d1 P1 P2 n1 n2 Hd Hv En Em Ec Ej Hd1 Hn1 Hn2 HPr Hnn HWc HWe
    |n' p k0 a dj d2 r2 post n1 n2 Hd Hv En Em Ea Ec Et Ej Hdj Hd2 Hr2 Hne Hdec Hnn HWc HWe
    |n' v k0 j Hd Hv En Em HPr HWe|n' v k0 Hd Hv En Em HWe
    |n' k0 a j Hd Hv En Em Ej HWe|n' k0 Pf Hd Hv En Em HWe];
    rewrite Hv in He; try discriminate He; inversion He; subst; clear He.
  - eapply Fin0; [constructor; exact HWe|exact HG|lia].
  - rewrite <- (Hag i Hi) in HWe. eapply Fin0; [constructor; exact HWe|exact HG|lia].
  - eapply Fin0; [constructor; exact HWe| |lia].
    eapply (GG_local_pool Fr M R0 gm g); [exact HG|simpl; auto..].
    + intros j Hj. unfold upd; simpl. destruct (j =? i); auto.
    + intros j Hj. unfold upd. destruct (Z.eqb_spec j i); [subst; contradiction|reflexivity].
    + intro Hx. unfold live in Hl. rewrite Hx in Hl. contradiction.
  - eapply Fin0; [constructor; exact HWe|exact HG|lia].
  - pose proof (gg_maxg _ _ _ _ _ _ HG) as Hmg.
    eapply Fin0; [constructor; apply HWe; lia| |lia].
    eapply GG_seen_pool; [exact HG|lia].
  - eapply Fin0; [constructor; apply HWe| |lia].
    eapply GG_loadgor_pool; eauto.
  - unfold pool_ok in Hok. rewrite Em in Hok. contradiction.
  - eapply Fin0; [constructor; apply HWe| |lia].
    eapply GG_inc_pool; eauto.
  - destruct (GG_dec_pool Fr M R0 R0fin gm g a _ _ _ HG Em Ec Ej HPr) as (Hz & deps' & HG').
    eapply Fin0; [constructor; apply HWe; exact Hz|exact HG'|lia].
  - exists gm, nm, (p1 ++ Pent c' (Gst (minus (dom g) d1) (minus (rd g) d1) (val g) (MAct (forked a P2)) (seen g)) n2
       :: p2 ++ [Pent (body p) (Gst d1 d1 (val g) (MAct (Act None P1 false false None)) 0) n1]), deps.
    simpl. split; [exact HW|]. split.
    + apply Forall_mid. split; [constructor; exact HWe|]. unfold rest in HP.
      rewrite app_assoc. apply Forall_app; split; auto.
    + split; [rewrite map_app; simpl; rewrite map_app; reflexivity|]. split.
      * rewrite map_app. simpl. rewrite map_app. apply GG_mid. simpl. rewrite app_assoc, <- map_app.
        eapply GG_perm; [apply perm_skip; apply Permutation_cons_append|].
        eapply GG_fork_pool; eauto.
      * rewrite total_app, total_cons, total_app, total_cons. simpl. unfold rest in Hn.
        rewrite total_app in Hn. lia.
  - unfold pool_ok in Hok. rewrite Em in Hok. destruct Hok; congruence.
Qed.

Lemma pool_no_recv pool deps s gm e k' :
  GGI gm (map eg pool) deps s -> In e pool -> WPT (en e) (ec e) (eg e) -> view (ec e) = HRecv k' -> False.
Proof.
  intros HG Hin [HW] Hv.
  assert (Hok : pool_ok (eg e)) by (eapply pool_mode; [exact HG|]; apply in_map; exact Hin).
  unfold pool_ok in Hok.
  destruct HW; try congruence.
  - rewrite H2 in Hok. destruct Hok; congruence.
  - rewrite H2 in Hok. exact Hok.
Qed.

Theorem inv_istep N k s s' : istep body s s' -> INV N k s -> INV N (S k) s'.
Proof.
  intros Hs HI. destruct Hs.
  - eapply inv_main; eauto.
  - eapply inv_thr; eauto.
  - (* goroutine -> caller *)
    destruct HI as (gm & nm & pool & deps & HW & HP & Ht & HG & Hn). simpl in *.
    destruct (pool_split _ _ _ _ Ht) as (p1 & e & p2 & -> & -> & -> & ->). clear Ht.
    apply Forall_mid in HP. destruct HP as [[HWe] HP].
    rewrite map_app in HG; simpl in HG. apply GG_mid in HG. rewrite <- map_app in HG.
    rewrite total_app, total_cons in Hn.
    assert (Hok : pool_ok (eg e)) by (eapply pool_mode; [exact HG|]; left; reflexivity).
    destruct HW; try congruence.
    + (* partner *)
      rewrite H0 in H2. inversion H2; subst.
      destruct HWe; try congruence.
      * rewrite H in H7. inversion H7; subst.
        destruct (GG_join Fr M R0 gm (eg e) a j j0 _ _ _ v0 HG H4 H5 H9 H10) as (Ha & Hp & HG').
        exists (Gst (union (dom gm) (j_D j)) (union (rd gm) (j_D j)) (mem s) (MAct (setjoin a None)) (seen gm)),
          n', (p1 ++ Pent k2 (noown (eg e) MDone) n'0 :: p2), deps. simpl.
        split; [apply H6; auto|]. split; [apply Forall_mid; split; auto; constructor; exact HWe|].
        split; [rewrite map_app; reflexivity|]. split.
        -- rewrite map_app. simpl. apply GG_mid. rewrite <- map_app. exact HG'.
        -- rewrite total_app, total_cons. simpl. lia.
      * exfalso. pose proof (gg_phase _ _ _ _ _ _ HG) as Hph. unfold phase in Hph. rewrite H4 in Hph.
        destruct (a_main a); [|contradiction]. destruct Hph as (_ & _ & Hl). rewrite sumf_cons in Hl.
        unfold last1 at 1 in Hl. rewrite H9 in Hl.
        pose proof (sumf_nonneg last1 (map eg (p1 ++ p2)) last1_nonneg). lia.
    + (* end signal *)
      rewrite H0 in H2. inversion H2; subst.
      destruct HWe; try congruence.
      * exfalso. pose proof (gg_vsm _ _ _ _ _ _ HG) as Hv. inversion Hv as [|? ? Hv1 _]; subst.
        unfold vs_main in Hv1. rewrite H8 in Hv1. destruct Hv1 as (Hv1 & _). unfold joined in Hv1.
        rewrite H4 in Hv1. discriminate.
      * rewrite H in H6. inversion H6; subst.
        exists (setmd gm (MFinal Pf)), n', (p1 ++ Pent k2 (noown (eg e) MDone) n'0 :: p2), []. simpl.
        split; [apply H5|]. split; [apply Forall_mid; split; auto; constructor; exact HWe|].
        split; [rewrite map_app; reflexivity|]. split.
        -- rewrite map_app. simpl. apply GG_mid. rewrite <- map_app. eapply GG_finish; eauto.
        -- rewrite total_app, total_cons. simpl. lia.
  - (* caller never sends *)
    exfalso. destruct HI as (gm & nm & pool & deps & HW & HP & Ht & HG & Hn). simpl in *.
    pose proof (main_mode _ _ _ _ HG) as Hmm.
    destruct HW; try congruence; rewrite H4 in Hmm; exact Hmm.
  - exfalso. destruct HI as (gm & nm & pool & deps & HW & HP & Ht & HG & Hn). simpl in *.
    rewrite app_comm_cons, app_assoc in Ht.
    destruct (pool_split _ _ _ _ Ht) as (p1 & e & p2 & -> & _ & -> & _).
    eapply pool_no_recv; [exact HG| | |exact H0]; [apply in_elt|].
    rewrite Forall_forall in HP. apply HP. apply in_elt.
  - exfalso. destruct HI as (gm & nm & pool & deps & HW & HP & Ht & HG & Hn). simpl in *.
    destruct (pool_split _ _ _ _ Ht) as (p1 & e & p2 & -> & _ & -> & _).
    eapply pool_no_recv; [exact HG| | |exact H]; [apply in_elt|].
    rewrite Forall_forall in HP. apply HP. apply in_elt.
Qed.

(** An outdated value of the counter. *)
Lemma inv_pstep N k s s' : (Fr -> False) -> pstep body s s' -> INV N k s -> INV N (S k) s'.
Proof.
  intros Hfr Hs HI. destruct Hs as [s s' Hs|m ts s k0 z Hv|m l1 c l2 s k0 z Hv].
  - eapply inv_istep; eauto.
  - destruct HI as (gm & nm & pool & deps & HW & HP & Ht & HG & Hn). simpl in *.
    destruct HW; try congruence. rewrite H0 in Hv. inversion Hv; subst.
    exists (setmd gm (MAct (settok a (z <? seen gm)))), n', pool, deps. simpl.
    split; [apply H5|]. split; [exact HP|]. split; [reflexivity|].
    split; [apply GG_stale_main; auto|lia].
  - destruct HI as (gm & nm & pool & deps & HW & HP & Ht & HG & Hn). simpl in *.
    destruct (pool_split _ _ _ _ Ht) as (p1 & e & p2 & -> & -> & -> & ->). clear Ht.
    apply Forall_mid in HP. destruct HP as [[HWe] HP].
    rewrite map_app in HG; simpl in HG. apply GG_mid in HG. rewrite <- map_app in HG.
    rewrite total_app, total_cons in Hn.
    destruct HWe; try congruence. rewrite H0 in Hv. inversion Hv; subst.
    exists gm, nm, (p1 ++ Pent (k0 z) (setmd (eg e) (MAct (settok a (z <? seen (eg e))))) n' :: p2), deps. simpl.
    split; [exact HW|]. split; [apply Forall_mid; split; auto; constructor; apply H5|].
    split; [rewrite map_app; reflexivity|]. split.
    + rewrite map_app. simpl. apply GG_mid. rewrite <- map_app. apply GG_stale_pool; auto.
    + rewrite total_app, total_cons. simpl. lia.
Qed.

Lemma inv_estep N k s s' : estep M R0 s s' -> INV N k s -> INV N k s'.
Proof.
  intros Hs (gm & nm & pool & deps & HW & HP & Ht & HG & Hn). destruct Hs. simpl in *.
  exists gm, nm, pool, deps. simpl. split; [exact HW|]. split; [exact HP|]. split; [exact Ht|]. split; [apply GG_env; auto|exact Hn].
Qed.

End Adequacy.

Arguments main_mode {Gr T Fr M R0} gm pool deps s _.
Arguments pool_mode {Gr T Fr M R0} gm pool deps s g _ _.
Arguments GG_mid {Gr T Fr M R0} gm l1 x l2 deps s.
Arguments GG_seen_main {Gr T Fr M R0} gm pool deps s x _ _.
Arguments GG_seen_pool {Gr T Fr M R0} gm g pool deps s x _ _.

Section Consequences.
Context {Gr : grain}.
Context {P T R : Type}.
Variable body : P -> cmd P T unit.
Variables (Dm D : nat) (M : Z) (R0 : cells) (Qm : R -> nat -> gst T -> Prop).
Hypothesis R0fin : exists l, (forall i, R0 i -> In i l) /\ Z.of_nat (length l) < two64.

Notation WP := (wp body (wpT body Dm) D Qm).
Notation WPT := (wpT body Dm).
Notation GGI := (@GG Gr T False M R0).
Notation INV := (INV body Dm D False M R0 Qm).
Notation INVF := (Verif.Adequacy.INV body Dm D True M R0 Qm).

Variables (N : nat) (c0 : cmd P T R) (m0 : Z -> T) (mg0 : Z) (md0 : mode T).
Hypothesis Hmg0 : 0 <= mg0 <= M.
Hypothesis Hmd0 : md0 = MSeq \/ md0 = MInit.
Hypothesis HW0 : WP N c0 (Gst R0 R0 m0 md0 0).

Lemma start_GG Fr : @GG Gr T Fr M R0 (Gst R0 R0 m0 md0 0) [] [] (Sh m0 0 mg0 0).
Proof.
  constructor; simpl; auto.
  - split; [auto|]. split; [auto|]. split; [intros i Hi; reflexivity|]. split; [simpl; lia|].
    unfold wf_md; simpl. destruct Hmd0 as [-> | ->]; exact I.
  - unfold phase. simpl. destruct Hmd0 as [-> | ->]; auto.
Qed.

Theorem reach_inv k s : exec body M R0 k (start c0 m0 mg0) s -> INV N k s.
Proof.
  intro H. remember (start c0 m0 mg0) as s0 eqn:E. induction H; subst.
  - exists (Gst R0 R0 m0 md0 0), N, [], []. simpl. split; [exact HW0|]. split; [constructor|].
    split; [reflexivity|]. split; [|lia].
    apply start_GG.
  - eapply inv_pstep; eauto.
  - eapply inv_estep; eauto.
Qed.

Theorem freach_inv k s : fexec body M R0 k (start c0 m0 mg0) s -> INVF N k s.
Proof.
  intro H. remember (start c0 m0 mg0) as s0 eqn:E. induction H; subst.
  - exists (Gst R0 R0 m0 md0 0), N, [], []. simpl. split; [exact HW0|]. split; [constructor|].
    split; [reflexivity|]. split; [|lia].
    apply start_GG.
  - eapply inv_istep; eauto.
  - eapply inv_estep; eauto.
Qed.

(** ** Consequences for every reachable state *)

Theorem ad_steps k s : exec body M R0 k (start c0 m0 mg0) s -> (k <= N)%nat.
Proof. intro H. destruct (reach_inv k s H) as (gm & nm & pool & deps & HW & HP & Ht & HG & Hn). lia. Qed.

Theorem ad_no_panic k s : exec body M R0 k (start c0 m0 mg0) s -> ~ panicked s.
Proof.
  intros H Hp. destruct (reach_inv k s H) as (gm & nm & pool & deps & HW & HP & Ht & HG & Hn).
  destruct Hp as [Hp|(c & Hin & Hp)].
  - destruct HW; congruence.
  - rewrite Ht in Hin. apply in_map_iff in Hin. destruct Hin as (e & <- & Hin).
    rewrite Forall_forall in HP. destruct (HP e Hin) as [HWe]. destruct HWe; congruence.
Qed.

Theorem ad_depth k s : exec body M R0 k (start c0 m0 mg0) s ->
  (depth (main s) <= D)%nat /\ forall c, In c (thr s) -> (depth c <= Dm)%nat.
Proof.
  intros H. destruct (reach_inv k s H) as (gm & nm & pool & deps & HW & HP & Ht & HG & Hn).
  split; [eapply wp_depth; eauto|]. intros c Hin.
  rewrite Ht in Hin. apply in_map_iff in Hin. destruct Hin as (e & <- & Hin).
  rewrite Forall_forall in HP. destruct (HP e Hin) as [HWe]. eapply wp_depth; eauto.
Qed.

Theorem ad_chans k s : exec body M R0 k (start c0 m0 mg0) s -> 0 <= chans (sh s) <= 1.
Proof.
  intros H. destruct (reach_inv k s H) as (gm & nm & pool & deps & HW & HP & Ht & HG & Hn).
  pose proof (gg_phase _ _ _ _ _ _ HG) as Hph. unfold phase, common in Hph.
  destruct (md gm); try contradiction; try (destruct (a_main a); [|contradiction]); intuition lia.
Qed.

Theorem ad_single k s : (md0 = MSeq \/ M <= 1) ->
  exec body M R0 k (start c0 m0 mg0) s -> thr s = [] /\ chans (sh s) = 0.
Proof.
  (* keep, along the run, that no counter has been created *)
  intros Hc H.
  assert (G : exists gm nm deps, WP nm (main s) gm /\ thr s = [] /\ GGI gm [] deps (sh s) /\
     (md gm = MSeq \/ (md gm = MInit /\ M <= 1))).
  { remember (start c0 m0 mg0) as s0 eqn:E. induction H; subst.
    - exists (Gst R0 R0 m0 md0 0), N, []. simpl. split; [exact HW0|]. split; [reflexivity|]. split.
      + apply start_GG.
      + destruct Hc; destruct Hmd0; auto.
    - specialize (IHexec eq_refl). destruct IHexec as (gm & nm & deps & HW & Ht & HG & Hm).
      pose proof (main_mode _ _ _ _ HG) as Hmm.
      destruct H0 as [s1 s2 H0|m ts s k0 z Hvs|m l1 c l2 s k0 z Hvs]; [destruct H0; simpl in Ht|..].
      + subst ts.
        pose proof (gg_wfm _ _ _ _ _ _ HG) as (_ & _ & Hag & Hsn & _).
        simpl in HW, HG. unfold exec_local in H0.
        destruct HW as [a Hd Hv Hq|n' c' Hd Hv En HW|n' i k0 Hd Hv En Hl Hi HW|n' i x k0 Hd Hv En Hl Hi Hz HW
          |n' p k0 Hd Hv En Hl HW|n' k0 Hd Hv En Hl HW|n' k0 a Hd Hv En Em Ec Ej HW|n' k0 Pr Hd Hv En Em Hs Hne HW
          |n' k0 a Hd Hv En Em Ec Et Ej H2 HW|n' k0 a Hd Hv En Em Ec Ej HPr HW
          |n' p k0 a d1 P1 P2 n1 n2 Hd Hv En Em Ec Ej Hd1 Hn1 Hn2 HPr Hnn HWc HW
          |n' p k0 a dj d2 r2 post n1 n2 Hd Hv En Em Ea Ec Et Ej Hdj Hd2 Hr2 Hne Hdec Hnn HWc HW
          |n' v k0 j Hd Hv En Em HPr HW|n' v k0 Hd Hv En Em HW
          |n' k0 a j Hd Hv En Em Ej HW|n' k0 Pf Hd Hv En Em HW];
          rewrite Hv in H0; try discriminate H0; inversion H0; subst; clear H0;
          try (exfalso; destruct Hm as [Hm|[Hm HM]]; rewrite Hm in *; try discriminate; lia).
        * exists gm, n', deps. auto.
        * rewrite <- (Hag i Hi) in HW. exists gm, n', deps. auto.
        * exists (setval gm (upd (val gm) i x)), n', deps. simpl.
          split; [exact HW|]. split; [auto|]. split; [|exact Hm].
          apply (GG_local_main False M R0 gm); simpl; auto.
          -- intros j Hj. unfold upd; simpl. destruct (j =? i); auto.
          -- intros j Hj. unfold upd. destruct (Z.eqb_spec j i); [subst; contradiction|reflexivity].
        * exists gm, n', deps. auto.
        * exists (setseen gm (maxg s')), n', deps. simpl.
          pose proof (gg_maxg _ _ _ _ _ _ HG) as Hmg.
          split; [apply HW; lia|]. split; [auto|]. split; [|exact Hm].
          apply GG_seen_main; auto; lia.
      + exfalso. destruct l1; discriminate.
      + exfalso. destruct l1; discriminate.
      + exfalso. destruct l1; discriminate.
      + exfalso. destruct l1; discriminate.
      + exfalso. destruct l1; discriminate.
      + exfalso. simpl in HW. destruct HW; try congruence. destruct Hm as [Hm|[Hm _]]; congruence.
      + exfalso. simpl in Ht. destruct l1; discriminate.
    - specialize (IHexec eq_refl). destruct IHexec as (gm & nm & deps & HW & Ht & HG & Hm).
      destruct H0. simpl in *. exists gm, nm, deps. split; [exact HW|]. split; [exact Ht|]. split; [apply GG_env; auto|exact Hm]. }
  destruct G as (gm & nm & deps & HW & Ht & HG & Hm). split; [exact Ht|].
  pose proof (gg_phase _ _ _ _ _ _ HG) as Hph. unfold phase in Hph.
  destruct Hm as [Hm|[Hm _]]; rewrite Hm in Hph; tauto.
Qed.

Lemma done_exiting n c g : (forall i, ~ rd g i) -> md g = MDone ->
  wp body WPT Dm QT n c g -> exiting c.
Proof.
  intros Hr Em HW. induction HW; try (unfold live in *; rewrite Em in *; contradiction); try congruence.
  - eapply exiting_ret; eauto.
  - eapply exiting_tau; eauto.
Qed.

Lemma final_exiting n c g Pf : md g = MFinal Pf -> WP n c g -> exiting c.
Proof.
  intros Em HW. induction HW; try (unfold live in *; rewrite Em in *; contradiction); try congruence.
  - eapply exiting_ret; eauto.
  - eapply exiting_tau; eauto.
Qed.

Lemma exiting_quiet {A} (c : cmd P T A) : exiting c -> quiet c.
Proof.
  induction 1; [eapply quiet_ret; eauto|eapply quiet_tau; eauto].
Qed.

Theorem ad_return Post k s r : (forall a n g, Qm a n g -> QM Post a n g) ->
  exec body M R0 k (start c0 m0 mg0) s -> returned s r ->
  Post r (mem (sh s)) /\ forall c, In c (thr s) -> exiting c.
Proof.
  intros HQ H Hr. destruct (reach_inv k s H) as (gm & nm & pool & deps & HW & HP & Ht & HG & Hn).
  pose proof (gg_wfm _ _ _ _ _ _ HG) as (_ & _ & Hag & _).
  pose proof (gg_phase _ _ _ _ _ _ HG) as Hph. unfold phase in Hph.
  unfold returned in Hr. destruct HW as [a Hd Hv Hq| | | | | | | | | | | | | | |]; try congruence.
  rewrite Hr in Hv. inversion Hv; subst a. apply HQ in Hq. unfold QM in Hq.
  destruct (md gm) eqn:Em; try contradiction.
  - destruct Hph as (Hp & _). split; [apply Hq; exact Hag|].
    intros c Hin. rewrite Ht in Hin. destruct pool; [destruct Hin|discriminate].
  - destruct Hph as (Hp & _). split; [apply Hq; exact Hag|].
    intros c Hin. rewrite Ht in Hin. destruct pool; [destruct Hin|discriminate].
  - destruct Hph as (Hp & _ & HPf). split; [apply Hq; apply HPf; auto|].
    intros c Hin. rewrite Ht in Hin. apply in_map_iff in Hin. destruct Hin as (e & <- & Hin).
    rewrite Forall_forall in HP, Hp. destruct (HP e Hin) as [HWe].
    assert (Emd : md (eg e) = MDone) by (apply Hp; apply in_map; exact Hin).
    eapply done_exiting; [|exact Emd|exact HWe].
    pose proof (gg_wf _ _ _ _ _ _ HG) as Hwf. rewrite Forall_forall in Hwf.
    destruct (Hwf (eg e) (in_map eg _ _ Hin)) as (_ & _ & _ & _ & Hw). unfold wf_md in Hw.
    rewrite Emd in Hw. exact Hw.
Qed.

(** A program that returns while it still is the caller of counted goroutines. *)
Theorem ad_result (Post : R -> (Z -> T) -> Prop) k s r : (forall a n g w, Qm a n g -> agrees g w -> Post a w) ->
  exec body M R0 k (start c0 m0 mg0) s -> returned s r -> Post r (mem (sh s)).
Proof.
  intros HQ H Hr. destruct (reach_inv k s H) as (gm & nm & pool & deps & HW & _ & _ & HG & _).
  pose proof (gg_wfm _ _ _ _ _ _ HG) as (_ & _ & Hag & _).
  unfold returned in Hr. destruct HW as [a Hd Hv Hq| | | | | | | | | | | | | | |]; try congruence.
  rewrite Hr in Hv. inversion Hv; subst a. eapply HQ; [exact Hq|exact Hag].
Qed.

Theorem ad_progress k s : exec body M R0 k (start c0 m0 mg0) s ->
  (exists r, returned s r) \/ exists s', pstep body s s'.
Proof.
  intros H. destruct (reach_inv k s H) as (gm & nm & pool & deps & HW & HP & Ht & HG & Hn).
  destruct s as [m ts sh0]. simpl in *.
  pose proof (main_mode _ _ _ _ HG) as Hmm.
  pose proof (gg_phase _ _ _ _ _ _ HG) as Hph. unfold phase in Hph.
  assert (Hloc : forall x, exec_local body m sh0 = Some x -> exists s', pstep body (St m ts sh0) s').
  { intros [[m' s'] fs] He. eexists. apply step_now, step_main. exact He. }
  assert (Hlt : forall e x, In e pool -> exec_local body (ec e) sh0 = Some x ->
            exists s', pstep body (St m ts sh0) s').
  { intros e [[c' s'] fs] Hin He. destruct (in_split _ _ Hin) as (p1 & p2 & ->).
    rewrite Ht, map_app. simpl. eexists. apply step_now, step_thr. exact He. }
  assert (Hsnd : forall e v k1 k2, In e pool -> view (ec e) = HSend v k1 -> view m = HRecv k2 ->
            exists s', pstep body (St m ts sh0) s').
  { intros e v k1 k2 Hin He Hm. destruct (in_split _ _ Hin) as (p1 & p2 & ->).
    rewrite Ht, map_app. simpl. eexists. apply step_now; eapply step_to_main; eassumption. }
  rewrite Forall_forall in HP.
  destruct HW as [a Hd Hv Hq|n' c' Hd Hv En HW|n' i k0 Hd Hv En Hl Hi HW|n' i x k0 Hd Hv En Hl Hi Hz HW
    |n' p k0 Hd Hv En Hl HW|n' k0 Hd Hv En Hl HW|n' k0 a Hd Hv En Em Ec Ej HW|n' k0 Pr Hd Hv En Em Hs Hne HW
    |n' k0 a Hd Hv En Em Ec Et Ej H2 HW|n' k0 a Hd Hv En Em Ec Ej HPr HW
    |n' p k0 a d1 P1 P2 n1 n2 Hd Hv En Em Ec Ej Hd1 Hn1 Hn2 HPr Hnn HWc HW
    |n' p k0 a dj d2 r2 post n1 n2 Hd Hv En Em Ea Ec Et Ej Hdj Hd2 Hr2 Hne Hdec Hnn HWc HW
    |n' v k0 j Hd Hv En Em HPr HW|n' v k0 Hd Hv En Em HW
    |n' k0 a j Hd Hv En Em Ej HW|n' k0 Pf Hd Hv En Em HW];
    try (right; eapply Hloc; unfold exec_local; rewrite Hv; reflexivity).
  - left. exists a. exact Hv.
  - rewrite Em in Hmm. contradiction.
  - rewrite Em in Hmm. contradiction.
  - (* waiting for the partner *)
    right. rewrite Em in Hph. destruct (a_main a); [|contradiction]. destruct Hph as (_ & Hp1 & _).
    rewrite Ej in Hp1.
    destruct (sumf_pos_ex part1 (map eg pool) ltac:(lia)) as (g & Hg & Hpg).
    apply in_map_iff in Hg. destruct Hg as (e & <- & Hin).
    unfold part1 in Hpg. destruct (md (eg e)) eqn:Eg; try lia.
    destruct (HP e Hin) as [HWe].
    destruct HWe; try congruence; try (eapply Hlt; [exact Hin|unfold exec_local; rewrite H1; reflexivity]).
    eapply Hsnd; eassumption.
  - (* waiting for the end signal *)
    right. rewrite Em in Hph. destruct Hph as ((C1 & _) & Hp1 & Hl1).
    destruct (Z.eqb_spec (ngor sh0) 0) as [Hz|Hz].
    + destruct (sumf_pos_ex last1 (map eg pool) ltac:(lia)) as (g & Hg & Hpg).
      apply in_map_iff in Hg. destruct Hg as (e & <- & Hin).
      unfold last1 in Hpg. destruct (md (eg e)) eqn:Eg; try lia.
      destruct (HP e Hin) as [HWe].
      destruct HWe; try congruence; try (eapply Hlt; [exact Hin|unfold exec_local; rewrite H1; reflexivity]).
      eapply Hsnd; eassumption.
    + assert (Hpos : 0 < sumf cnt (map eg pool)).
      { rewrite sumf_cons in C1. unfold cnt at 1 in C1. rewrite Em in C1.
        pose proof (sumf_nonneg cnt (map eg pool) cnt_nonneg). lia. }
      destruct (sumf_pos_ex cnt (map eg pool) Hpos) as (g & Hg & Hpg).
      apply in_map_iff in Hg. destruct Hg as (e & <- & Hin).
      unfold cnt in Hpg. destruct (md (eg e)) eqn:Eg; try lia.
      destruct (HP e Hin) as [HWe].
      assert (Hok : pool_ok (eg e)) by (eapply pool_mode; [exact HG|]; apply in_map; exact Hin).
      unfold pool_ok in Hok. rewrite Eg in Hok. destruct Hok as [Hok1 Hok2].
      destruct HWe; try congruence; try (eapply Hlt; [exact Hin|unfold exec_local; rewrite H1; reflexivity]).

Qed.

(** Own cells of the goroutine that is about to access memory. *)
Lemma access_own {A} W D' (Q : A -> nat -> gst T -> Prop) n c g i w :
  wp body W D' Q n c g -> access c = Some (i, w) ->
  rd g i \/ dom g i.
Proof.
  intros HW Ha. unfold access in Ha.
  destruct HW; rewrite H0 in Ha; try discriminate; inversion Ha; subst; auto.
Qed.

Lemma access_dom {A} W D' (Q : A -> nat -> gst T -> Prop) n c g i :
  wp body W D' Q n c g -> access c = Some (i, true) -> dom g i.
Proof.
  intros HW Ha. unfold access in Ha.
  destruct HW; rewrite H0 in Ha; try discriminate; inversion Ha; subst; auto.
Qed.

Theorem ad_no_race k s : exec body M R0 k (start c0 m0 mg0) s -> ~ race s.
Proof.
  intros H. destruct (reach_inv k s H) as (gm & nm & pool & deps & HW & HP & Ht & HG & Hn).
  rewrite Forall_forall in HP.
  pose proof (gg_wfm _ _ _ _ _ _ HG) as (Hdm & _).
  pose proof (gg_wf _ _ _ _ _ _ HG) as Hwf. rewrite Forall_forall in Hwf.
  pose proof (gg_vsm _ _ _ _ _ _ HG) as Hvm. rewrite Forall_forall in Hvm.
  pose proof (gg_vs _ _ _ _ _ _ HG) as Hv.
  assert (Hpw : forall i j g g', i <> j -> nth_error (map eg pool) i = Some g ->
             nth_error (map eg pool) j = Some g' -> vs g g').
  { clear - Hv. generalize dependent (map eg pool). intro l. induction l as [|h l IH]; intros Hv i j g g' Hij Hi Hj.
    - destruct i; discriminate.
    - destruct Hv as [Hv1 Hv2]. rewrite Forall_forall in Hv1.
      destruct i as [|i], j as [|j]; simpl in *; try congruence.
      + inversion Hi; subst. apply Hv1. eapply nth_error_In; eauto.
      + inversion Hj; subst. apply vs_sym. apply Hv1. eapply nth_error_In; eauto.
      + eapply (IH Hv2 i j); eauto. }
  assert (Hmp : forall e x wi wj, In e pool -> access (main s) = Some (x, wi) ->
             access (ec e) = Some (x, wj) -> wi = true \/ wj = true -> False).
  { intros e x wi wj Hin Ha1 Ha2 Hor. destruct (HP e Hin) as [HWe].
    pose proof (Hwf _ (in_map eg _ _ Hin)) as (Hde & _).
    pose proof (Hvm _ (in_map eg _ _ Hin)) as Hv1.
    assert (R1 : rd gm x) by (destruct (access_own _ _ _ _ _ _ _ _ HW Ha1); auto).
    assert (R2 : rd (eg e) x) by (destruct (access_own _ _ _ _ _ _ _ _ HWe Ha2); auto).
    unfold vs_main in Hv1.
    destruct (md (eg e)); try (apply (Hv1 x); [left|]; auto; fail).
    destruct Hv1 as (_ & _ & V1 & V2). destruct Hor; subst.
    - apply (V1 x); auto. eapply access_dom; eauto.
    - apply (V2 x); auto. eapply access_dom; eauto. }
  intros (i & j & x & wi & wj & Hij & Hi & Hj & Hor).
  unfold accesses in *. rewrite Ht in Hi, Hj. rewrite map_map in Hi, Hj.
  destruct i as [|i], j as [|j]; simpl in Hi, Hj.
  - congruence.
  - inversion Hi as [Hi']. apply nth_error_In in Hj. apply in_map_iff in Hj.
    destruct Hj as (e & Hj & Hin). eapply (Hmp e x wi wj); eauto.
  - inversion Hj as [Hj']. apply nth_error_In in Hi. apply in_map_iff in Hi.
    destruct Hi as (e & Hi & Hin). eapply (Hmp e x wj wi); eauto. tauto.
  - rewrite nth_error_map in Hi, Hj.
    destruct (nth_error pool i) as [e1|] eqn:E1; [|discriminate].
    destruct (nth_error pool j) as [e2|] eqn:E2; [|discriminate].
    simpl in Hi, Hj. inversion Hi as [Hi']. inversion Hj as [Hj'].
    assert (V : vs (eg e1) (eg e2)).
    { apply (Hpw i j); [congruence| |]; rewrite nth_error_map; [rewrite E1|rewrite E2]; reflexivity. }
    pose proof (nth_error_In _ _ E1) as I1. pose proof (nth_error_In _ _ E2) as I2.
    destruct (HP e1 I1) as [W1]. destruct (HP e2 I2) as [W2].
    pose proof (Hwf _ (in_map eg _ _ I1)) as (D1 & _). pose proof (Hwf _ (in_map eg _ _ I2)) as (D2 & _).
    apply (V x).
    + destruct (access_own _ _ _ _ _ _ _ _ W1 Hi'); auto.
    + destruct (access_own _ _ _ _ _ _ _ _ W2 Hj'); auto.
Qed.

Theorem ad_frame k s s' : exec body M R0 k (start c0 m0 mg0) s -> pstep body s s' ->
  forall i, ~ R0 i -> mem (sh s') i = mem (sh s) i.
Proof.
  intros H Hs i Hi. destruct (reach_inv k s H) as (gm & nm & pool & deps & HW & HP & Ht & HG & Hn).
  rewrite Forall_forall in HP.
  assert (Hone : forall A (c : cmd P T A) s0 c' s1 fs, exec_local body c s0 = Some (c', s1, fs) ->
            (forall x, access c = Some (x, true) -> R0 x) -> mem s1 i = mem s0 i).
  { intros A c s0 c' s1 fs He Ha. unfold exec_local in He. unfold access in Ha.
    destruct (view c); inversion He; subst; simpl; auto.
    unfold upd. destruct (Z.eqb_spec i i0); auto. subst. exfalso. apply Hi. apply Ha. reflexivity. }
  destruct Hs as [s s' Hs|m ts s k0 z Hvs|m l1 c l2 s k0 z Hvs]; [|reflexivity|reflexivity].
  destruct Hs; simpl; auto; simpl in *.
  - eapply Hone; eauto. intros x Hx.
    pose proof (gg_wfm _ _ _ _ _ _ HG) as (Hd & HR & _). apply HR, Hd. eapply access_dom; eauto.
  - eapply Hone; eauto. intros x Hx.
    destruct (pool_split _ _ _ _ Ht) as (p1 & e & p2 & -> & _ & -> & _).
    destruct (HP e (in_elt _ _ _)) as [HWe].
    pose proof (gg_wf _ _ _ _ _ _ HG) as Hwf. rewrite Forall_forall in Hwf.
    destruct (Hwf (eg e)) as (Hd & HR & _); [apply in_map; apply in_elt|].
    apply HR, Hd. eapply access_dom; eauto.
Qed.

(** Every access of every goroutine is to a cell of the region. *)
Theorem ad_in_bounds k s a x w : exec body M R0 k (start c0 m0 mg0) s ->
  In a (accesses s) -> a = Some (x, w) -> R0 x.
Proof.
  intros H Hin ->. destruct (reach_inv k s H) as (gm & nm & pool & deps & HW & HP & Ht & HG & Hn).
  rewrite Forall_forall in HP.
  pose proof (gg_wfm _ _ _ _ _ _ HG) as (Hdm & HRm & _).
  pose proof (gg_wf _ _ _ _ _ _ HG) as Hwf. rewrite Forall_forall in Hwf.
  unfold accesses in Hin. destruct Hin as [Hin|Hin].
  - destruct (access_own _ _ _ _ _ _ _ _ HW Hin); auto.
  - rewrite Ht, map_map in Hin. apply in_map_iff in Hin. destruct Hin as (e & He & Hin).
    destruct (HP e Hin) as [HWe]. destruct (Hwf (eg e) (in_map eg _ _ Hin)) as (Hd & HR & _).
    destruct (access_own _ _ _ _ _ _ _ _ HWe He); auto.
Qed.

(** With [frozen], no goroutine is ever about to write, and the cells keep their values. *)
Lemma access_frozen {A} W D' (Q : A -> nat -> gst T -> Prop) n c g i :
  frozen = true -> wp body W D' Q n c g -> access c = Some (i, true) -> False.
Proof.
  intros Fz HW Ha. unfold access in Ha.
  destruct HW; rewrite H0 in Ha; try discriminate; inversion Ha; subst; congruence.
Qed.

Theorem ad_frozen k s x : frozen = true -> exec body M R0 k (start c0 m0 mg0) s ->
  ~ In (Some (x, true)) (accesses s).
Proof.
  intros Fz H Hin. destruct (reach_inv k s H) as (gm & nm & pool & deps & HW & HP & Ht & HG & Hn).
  rewrite Forall_forall in HP. unfold accesses in Hin. destruct Hin as [Hin|Hin].
  - eapply access_frozen; [exact Fz|exact HW|exact Hin].
  - rewrite Ht, map_map in Hin. apply in_map_iff in Hin. destruct Hin as (e & He & Hin).
    destruct (HP e Hin) as [HWe]. eapply access_frozen; [exact Fz|exact HWe|exact He].
Qed.

Theorem ad_kept k s : frozen = true -> exec body M R0 k (start c0 m0 mg0) s ->
  forall i, R0 i -> mem (sh s) i = m0 i.
Proof.
  intros Fz H i Hi. remember (start c0 m0 mg0) as s0 eqn:E0. revert E0.
  induction H as [s1|n1 s1 s2 s3 H1 IH Hs|n1 s1 s2 s3 H1 IH Hs]; intros E0; subst.
  - reflexivity.
  - rewrite <- (IH eq_refl).
    assert (Ha := fun x => ad_frozen _ _ x Fz H1). unfold accesses in Ha.
    assert (Hone : forall A (c : cmd P T A) sa c' sb fs, exec_local body c sa = Some (c', sb, fs) ->
            (forall x, access c <> Some (x, true)) -> mem sb i = mem sa i).
    { intros A c sa c' sb fs He Hc. unfold exec_local in He. unfold access in Hc.
      destruct (view c); inversion He; subst; simpl; auto. exfalso. eapply Hc. reflexivity. }
    destruct Hs as [sa sb Hs|m ts sa k0 z Hvs|m l1 c l2 sa k0 z Hvs]; [|reflexivity|reflexivity].
    destruct Hs; simpl; auto; simpl in *.
    + eapply Hone; eauto. intros x Hx. apply (Ha x). left. exact Hx.
    + eapply Hone; eauto. intros x Hx. apply (Ha x). right. rewrite map_app. apply in_or_app. right. left. exact Hx.
  - destruct Hs as [m ts sa mem' mg' _ Hm]. simpl. rewrite (Hm i Hi). exact (IH eq_refl).
Qed.

(** *** Number of working goroutines *)
Definition busy (g : gst T) : Z :=
  match md g with MSeq | MInit | MAct _ | MPart _ => 1 | _ => 0 end.

Lemma busy_or_quiet_thr n c g : (forall i, md g = MDone \/ md g = MLast -> ~ rd g i) ->
  wpT body Dm n c g -> pool_ok g -> busy g = 1 \/ quiet c.
Proof.
  intros Hr [HW] Hok. unfold busy. unfold pool_ok in Hok.
  destruct (md g) eqn:Em; auto; try contradiction; right.
  - assert (G : forall n c g, md g = MLast -> (forall i, ~ rd g i) -> wp body WPT Dm QT n c g -> quiet c).
    { clear. intros n c g Em Hr HW. induction HW; try (unfold live in *; rewrite Em in *; contradiction); try congruence.
      - eapply quiet_tau; eauto.
      - eapply quiet_send; eauto. apply exiting_quiet. eapply done_exiting; [| |exact HW]; simpl; auto. }
    eapply G; eauto.
  - apply exiting_quiet. eapply done_exiting; eauto.
Qed.

Lemma busy_or_quiet_main n c g pool deps s Fr : @GG Gr T Fr M R0 g pool deps s ->
  WP n c g -> busy g = 1 \/ quiet c.
Proof.
  intros HG HW. pose proof (main_mode _ _ _ _ HG) as Hmm. unfold busy.
  destruct (md g) eqn:Em; auto; try contradiction; right.
  - clear HG Hmm. induction HW; try (unfold live in *; rewrite Em in *; contradiction); try congruence.
    + eapply quiet_ret; eauto.
    + eapply quiet_tau; eauto.
    + eapply quiet_recv; eauto. intro v. apply exiting_quiet.
      eapply final_exiting; [|apply H3]. simpl. reflexivity.
  - apply exiting_quiet. eapply final_exiting; eauto.
Qed.

(** Goroutine [i] of the call: 0 is the caller. *)
Definition working (s : st P T R) (i : nat) : Prop :=
  match i with
  | O => ~ quiet (main s)
  | S i' => exists c, nth_error (thr s) i' = Some c /\ ~ quiet c
  end.

Theorem ad_active k s idx : fexec body M R0 k (start c0 m0 mg0) s ->
  NoDup idx -> (forall i, In i idx -> working s i) ->
  Z.of_nat (length idx) <= Z.max 1 (2 * (M - 1)).
Proof.
  intros H Hnd Hw. destruct (freach_inv k s H) as (gm & nm & pool & deps & HW & HP & Ht & HG & Hn).
  rewrite Forall_forall in HP.
  pose proof (gg_wf _ _ _ _ _ _ HG) as Hwf. rewrite Forall_forall in Hwf.
  assert (B1 : Z.of_nat (length idx) <= sumf busy (gm :: map eg pool)).
  { apply count_le; auto.
    - intro g. unfold busy. destruct (md g); lia.
    - intros i Hin. specialize (Hw i Hin). destruct i as [|i]; simpl in *.
      + exists gm. split; auto. destruct (busy_or_quiet_main _ _ _ _ _ _ _ HG HW); [lia|contradiction].
      + destruct Hw as (c & Hc & Hq). rewrite Ht, nth_error_map in Hc.
        destruct (nth_error pool i) as [e|] eqn:Ee; [|discriminate]. simpl in Hc. inversion Hc; subst.
        exists (eg e). rewrite nth_error_map, Ee. split; auto.
        pose proof (nth_error_In _ _ Ee) as Hin'.
        destruct (busy_or_quiet_thr (en e) (ec e) (eg e)) as [Hb|Hb]; auto; try lia; try contradiction.
        * intros j Hj. destruct (Hwf (eg e) (in_map eg _ _ Hin')) as (_ & _ & _ & _ & Hwm).
          unfold wf_md in Hwm. destruct Hj as [Hj|Hj]; rewrite Hj in Hwm; apply Hwm.
        * eapply pool_mode; [exact HG|]. apply in_map; auto. }
  assert (B2 : sumf busy (gm :: map eg pool) <= Z.max 1 (2 * (M - 1))); [|lia].
  pose proof (gg_phase _ _ _ _ _ _ HG) as Hph. unfold phase in Hph.
  assert (B3 : sumf busy (map eg pool) <= sumf wt (map eg pool) + sumf part1 (map eg pool)).
  { assert (G : forall l : list (gst T), Forall pool_ok l -> sumf busy l <= sumf wt l + sumf part1 l).
    { clear. induction l as [|g l IH]; intro HF; [unfold sumf; simpl; lia|].
      inversion HF as [|? ? Hok HF']; subst. specialize (IH HF'). rewrite !sumf_cons.
      assert (busy g <= wt g + part1 g); [|lia]. unfold busy, wt, part1, pool_ok in *.
      destruct (md g); try lia. destruct (a_credit a), (a_tok a); lia. }
    apply G. apply (gg_pool _ _ _ _ _ _ HG). }
  rewrite sumf_cons. pose proof (gg_wfm _ _ _ _ _ _ HG) as (_ & _ & _ & _ & Hwm).
  unfold wf_md in Hwm. unfold busy at 1.
  destruct (md gm) eqn:Em; try contradiction.
  - destruct Hph as (-> & _). unfold sumf; simpl. lia.
  - destruct Hph as (-> & _). unfold sumf; simpl. lia.
  - destruct (a_main a); [|contradiction]. destruct Hph as ((C1 & C2 & C3 & _) & C6 & _). specialize (C2 I).
    rewrite sumf_cons in C2. unfold wt at 1 in C2. rewrite Em in C2.
    destruct Hwm as (_ & Hw2 & Hw3). destruct (a_join a) as [j|] eqn:Ej.
    + destruct (Hw3 j eq_refl) as [Htk _]. rewrite Htk in C2. destruct (a_credit a); lia.
    + destruct (a_credit a), (a_tok a); lia.
  - destruct Hph as ((C1 & C2 & C3 & _) & C6 & _). specialize (C2 I).
    rewrite sumf_cons in C2. unfold wt at 1 in C2. rewrite Em in C2. lia.
  - destruct Hph as (C1 & _).
    assert (sumf busy (map eg pool) = 0); [|lia].
    clear - C1. induction (map eg pool) as [|g l IH]; auto. inversion C1; subst.
    rewrite sumf_cons, IH by auto. unfold busy. rewrite H1. reflexivity.
Qed.

(** Counting by elements: every goroutine at work has more than [gr] of them. *)
Lemma busy_share Fr gm pool deps s L : @GG Gr T Fr M R0 gm pool deps s -> (forall i, R0 i -> In i L) ->
  sumf busy (gm :: pool) <= 1 \/
  (Z.of_nat gr + 1) * sumf busy (gm :: pool) <= Z.of_nat (length L).
Proof.
  intros HG HL.
  pose proof (counter_share _ _ _ gm pool deps s L HG HL) as Hsh.
  pose proof (gg_phase _ _ _ _ _ _ HG) as Hph. unfold phase in Hph.
  assert (B3 : sumf busy pool <= sumf load pool + sumf part1 pool).
  { assert (G : forall l : list (gst T), Forall pool_ok l -> sumf busy l <= sumf load l + sumf part1 l).
    { clear. induction l as [|g l IH]; intro HF; [unfold sumf; simpl; lia|].
      inversion HF as [|? ? Hok HF']; subst. specialize (IH HF'). rewrite !sumf_cons.
      assert (busy g <= load g + part1 g); [|lia]. unfold busy, load, part1, pool_ok in *.
      destruct (md g); try lia. destruct (a_credit a), (a_join a); lia. }
    apply G. apply (gg_pool _ _ _ _ _ _ HG). }
  rewrite sumf_cons in Hsh; rewrite sumf_cons. pose proof (gg_wfm _ _ _ _ _ _ HG) as (_ & _ & _ & _ & Hwm).
  unfold wf_md in Hwm. unfold busy at 1 3. unfold load at 1 in Hsh.
  destruct (md gm) eqn:Em; try contradiction.
  - left. destruct Hph as (Hp0 & _). rewrite Hp0 . unfold sumf ; simpl . lia.
  - left. destruct Hph as (Hp0 & _). rewrite Hp0 . unfold sumf ; simpl . lia.
  - right. destruct (a_main a); [|contradiction]. destruct Hph as (_ & C6 & _).
    destruct Hwm as (_ & Hw2 & _). destruct (a_credit a).
    + destruct (Hw2 eq_refl) as (_ & _ & Ej). rewrite Ej in C6. nia.
    + destruct (a_join a); nia.
  - right. destruct Hph as (_ & C6 & _). nia.
  - left. destruct Hph as (Hd & _).
    assert (Hz : sumf busy pool = 0); [|lia]. clear - Hd. induction Hd as [|g l Hg Hd IH]; [reflexivity|].
    rewrite sumf_cons, IH. unfold busy. rewrite Hg. lia.
Qed.

(** However outdated the values read from the counter are: each goroutine at work has more
    than [gr] elements to itself (the caller and its partner: twice that). *)
Theorem ad_spread k s idx L : exec body M R0 k (start c0 m0 mg0) s -> (forall i, R0 i -> In i L) ->
  NoDup idx -> (forall i, In i idx -> working s i) ->
  Z.of_nat (length idx) <= 1 \/ (Z.of_nat gr + 1) * Z.of_nat (length idx) <= Z.of_nat (length L).
Proof.
  intros H HL Hnd Hw. destruct (reach_inv k s H) as (gm & nm & pool & deps & HW & HP & Ht & HG & Hn).
  rewrite Forall_forall in HP.
  pose proof (gg_wf _ _ _ _ _ _ HG) as Hwf. rewrite Forall_forall in Hwf.
  assert (B1 : Z.of_nat (length idx) <= sumf busy (gm :: map eg pool)).
  { apply count_le; auto.
    - intro g. unfold busy. destruct (md g); lia.
    - intros i Hin. specialize (Hw i Hin). destruct i as [|i]; simpl in *.
      + exists gm. split; auto. destruct (busy_or_quiet_main _ _ _ _ _ _ _ HG HW); [lia|contradiction].
      + destruct Hw as (c & Hc & Hq). rewrite Ht, nth_error_map in Hc.
        destruct (nth_error pool i) as [e|] eqn:Ee; [|discriminate]. simpl in Hc. inversion Hc; subst.
        exists (eg e). rewrite nth_error_map, Ee. split; auto.
        pose proof (nth_error_In _ _ Ee) as Hin'.
        destruct (busy_or_quiet_thr (en e) (ec e) (eg e)) as [Hb|Hb]; auto; try lia; try contradiction.
        * intros j Hj. destruct (Hwf (eg e) (in_map eg _ _ Hin')) as (_ & _ & _ & _ & Hwm).
          unfold wf_md in Hwm. destruct Hj as [Hj|Hj]; rewrite Hj in Hwm; apply Hwm.
        * eapply pool_mode; [exact HG|]. apply in_map; auto. }
  destruct (busy_share _ _ _ _ _ L HG HL); [left|right]; nia.
Qed.

(** ** The goroutine counter *)

(** [c] is about to add [d] to the counter. *)
Definition adds {A} (c : cmd P T A) (d : Z) : Prop := exists k, view c = HAddGor d k.

Lemma cnt_nonneg (g : gst T) : 0 <= cnt g.
Proof. unfold cnt. destruct (md g); try lia. destruct (a_credit a); lia. Qed.

Lemma phase_act gm pool deps s g a : GGI gm pool deps s -> In g (gm :: pool) -> md g = MAct a ->
  ngor s = sumf cnt (gm :: pool) /\ chans s = 1.
Proof.
  intros HG Hin Em. pose proof (gg_phase _ _ _ _ _ _ HG) as Hph. unfold phase in Hph.
  destruct Hin as [<-|Hin].
  - rewrite Em in Hph. destruct (a_main a); [|contradiction]. destruct Hph as ((C1 & _ & _ & C4 & _) & _).
    auto.
  - destruct (md gm); try contradiction.
    + destruct Hph as (-> & _). destruct Hin.
    + destruct Hph as (-> & _). destruct Hin.
    + destruct (a_main a0); [|contradiction]. destruct Hph as ((C1 & _ & _ & C4 & _) & _). auto.
    + destruct Hph as ((C1 & _ & _ & C4 & _) & _). auto.
    + destruct Hph as (C1 & _). rewrite Forall_forall in C1. rewrite (C1 g Hin) in Em. discriminate.
Qed.

Lemma sumf_ge_in {X} (f : X -> Z) (l : list X) x : (forall y, 0 <= f y) -> In x l -> f x <= sumf f l.
Proof.
  intros Hf. induction l as [|y l IH]; intros []; rewrite sumf_cons.
  - subst. pose proof (sumf_nonneg f l Hf). lia.
  - specialize (IH H). specialize (Hf y). lia.
Qed.

Lemma adds_ok gm pool deps s g : GGI gm pool deps s -> In g (gm :: pool) ->
  forall Dx A (Q : A -> nat -> gst T -> Prop) n c d, wp body WPT Dx Q n c g -> adds c d ->
  (d = 1 /\ 0 <= ngor s /\ ngor s + 1 < two64) \/ (d = two64 - 1 /\ 0 < ngor s < two64).
Proof.
  intros HG Hin Dx A Q n c d HW (k0 & Hk).
  assert (Hb := counter_small False M R0 R0fin _ _ _ _ HG).
  assert (Hnn := sumf_nonneg cnt (gm :: pool) cnt_nonneg).
  destruct HW; try congruence.
  - rewrite H0 in Hk. inversion Hk; subst. left. split; [reflexivity|].
    destruct (phase_act _ _ _ _ _ _ HG Hin H2) as [C1 C4]. rewrite C1. split; [lia|].
    assert (HG' : exists gm' pool' s', GGI gm' pool' deps s' /\ sumf cnt (gm' :: pool') = sumf cnt (gm :: pool) + 1).
    { destruct Hin as [<-|Hin].
      - exists (setmd gm (MAct (setcredit a))), pool, (Sh (mem s) ((ngor s + 1) mod two64) (maxg s) (chans s)).
        split; [apply GG_inc_main; auto|]. rewrite !sumf_cons. assert (E1 : cnt (setmd gm (MAct (setcredit a))) = 2) by reflexivity.
        assert (E2 : cnt gm = 1) by (unfold cnt; rewrite H2, H3; reflexivity). lia.
      - destruct (in_split _ _ Hin) as (p1 & p2 & ->). apply GG_mid in HG.
        exists gm, (setmd g (MAct (setcredit a)) :: p1 ++ p2), (Sh (mem s) ((ngor s + 1) mod two64) (maxg s) (chans s)).
        split; [eapply GG_inc_pool; eauto|]. rewrite !sumf_cons, !sumf_app, sumf_cons.
        assert (E1 : cnt (setmd g (MAct (setcredit a))) = 2) by reflexivity.
        assert (E2 : cnt g = 1) by (unfold cnt; rewrite H2, H3; reflexivity). lia. }
    destruct HG' as (gm' & pool' & s' & HG' & E).
    assert (Hb' := counter_small False M R0 R0fin _ _ _ _ HG'). lia.
  - rewrite H0 in Hk. inversion Hk; subst. right. split; [reflexivity|].
    destruct (phase_act _ _ _ _ _ _ HG Hin H2) as [C1 C4]. rewrite C1.
    assert (cnt g = 1) by (unfold cnt; rewrite H2, H3; reflexivity).
    assert (Hx := sumf_ge_in cnt _ g cnt_nonneg Hin). lia.
Qed.

(** No wrap-around of the counter, ever. *)
Theorem ad_counter k s d : exec body M R0 k (start c0 m0 mg0) s ->
  (adds (main s) d \/ exists c, In c (thr s) /\ adds c d) ->
  (d = 1 /\ 0 <= ngor (sh s) /\ ngor (sh s) + 1 < two64) \/ (d = two64 - 1 /\ 0 < ngor (sh s) < two64).
Proof.
  intros H Hd. destruct (reach_inv k s H) as (gm & nm & pool & deps & HW & HP & Ht & HG & Hn).
  destruct Hd as [Hd|(c & Hin & Hd)].
  - eapply (adds_ok _ _ _ _ gm HG); [left; reflexivity|exact HW|exact Hd].
  - rewrite Ht in Hin. apply in_map_iff in Hin. destruct Hin as (e & <- & Hin).
    rewrite Forall_forall in HP. destruct (HP e Hin) as [HWe].
    eapply (adds_ok _ _ _ _ (eg e) HG); [right; apply in_map; exact Hin|exact HWe|exact Hd].
Qed.

Lemma wait_post Post (Pf : promise T) w : (forall a n g, Qm a n g -> QM Post a n g) -> Pf w -> forall n c g, WP n c g -> md g = MWait Pf \/ md g = MFinal Pf ->
  exists r, Post r w.
Proof.
  intros HQ HPf n c g HW. induction HW; intro Em;
    try (unfold live in *; destruct Em as [Em|Em]; rewrite Em in *; contradiction);
    try (destruct Em; congruence); auto.
  - apply HQ in H1. unfold QM in H1. destruct Em as [Em|Em]; rewrite Em in H1; [contradiction|]. exists a. auto.
  - assert (Pf0 = Pf) by (destruct Em; congruence). subst. apply (H4 0). right. reflexivity.
Qed.

(** Once the counter has been created, it is zero only when the work is done: the
    postcondition holds, and no goroutine does anything but signal, wait or exit. *)
Theorem ad_zero Post k s : (forall a n g, Qm a n g -> QM Post a n g) -> exec body M R0 k (start c0 m0 mg0) s ->
  chans (sh s) = 1 -> ngor (sh s) = 0 ->
  (exists r, Post r (mem (sh s))) /\ quiet (main s) /\ forall c, In c (thr s) -> quiet c.
Proof.
  intros HQ H Hc Hz. destruct (reach_inv k s H) as (gm & nm & pool & deps & HW & HP & Ht & HG & Hn).
  pose proof (gg_phase _ _ _ _ _ _ HG) as Hph. unfold phase in Hph.
  pose proof (gg_wf _ _ _ _ _ _ HG) as Hwf. rewrite Forall_forall in Hwf.
  pose proof (gg_pool _ _ _ _ _ _ HG) as Hpo. rewrite Forall_forall in Hpo.
  rewrite Forall_forall in HP.
  assert (Hq : sumf cnt (map eg pool) = 0 -> sumf part1 (map eg pool) = 0 -> forall c, In c (thr s) -> quiet c).
  { intros E1 E2 c Hin. rewrite Ht in Hin. apply in_map_iff in Hin. destruct Hin as (e & <- & Hin).
    assert (Hin' := in_map eg _ _ Hin).
    destruct (busy_or_quiet_thr (en e) (ec e) (eg e)) as [Hb|Hb]; auto.
    - intros j Hj. destruct (Hwf _ Hin') as (_ & _ & _ & _ & Hwm).
      unfold wf_md in Hwm. destruct Hj as [Hj|Hj]; rewrite Hj in Hwm; apply Hwm.
    - exfalso. assert (B1 := sumf_ge_in cnt _ _ cnt_nonneg Hin').
      assert (B2 := sumf_ge_in part1 _ _ (fun g => ltac:(unfold part1; destruct (md g); lia)) Hin').
      unfold busy in Hb. specialize (Hpo _ Hin'). unfold pool_ok in Hpo.
      unfold cnt in B1 at 1. unfold part1 in B2 at 1.
      destruct (md (eg e)); try lia; try contradiction. destruct (a_credit a); lia. }
  assert (Hqm : busy gm = 0 -> quiet (main s)).
  { intro Hb. destruct (busy_or_quiet_main _ _ _ _ _ _ _ HG HW); [lia|assumption]. }
  destruct (md gm) eqn:Em; try contradiction.
  - destruct Hph as (_ & _ & E). rewrite E in Hc. discriminate.
  - destruct Hph as (_ & _ & E). rewrite E in Hc. discriminate.
  - destruct (a_main a); [|contradiction]. destruct Hph as ((C1 & _) & _).
    rewrite sumf_cons in C1. assert (B := sumf_nonneg cnt (map eg pool) cnt_nonneg).
    unfold cnt in C1 at 1. rewrite Em in C1. destruct (a_credit a); lia.
  - destruct Hph as ((C1 & _ & _ & _ & C5) & C6 & _). rewrite Hz, sumf_cons in C1.
    unfold cnt in C1 at 1. rewrite Em in C1.
    split; [|split; [apply Hqm; unfold busy; rewrite Em; reflexivity|apply Hq; lia]].
    eapply wait_post with (Pf := Pf); [exact HQ| |exact HW|auto].
    apply C5.
    + unfold prom. rewrite Em. exact I.
    + rewrite Forall_forall. intros g Hin. unfold prom.
      assert (B1 := sumf_ge_in cnt _ _ cnt_nonneg Hin). unfold cnt in B1 at 1.
      destruct (md g); auto. destruct (a_credit a); lia.
    + rewrite Forall_forall. intros d Hd. pose proof (gg_deps _ _ _ _ _ _ HG) as Hds.
      rewrite Forall_forall in Hds. destruct (Hds d Hd) as (_ & G & _). apply G. auto.
  - destruct Hph as (C1 & _ & C3). split; [|split; [apply Hqm; unfold busy; rewrite Em; reflexivity|]].
    + eapply wait_post with (Pf := Pf); [exact HQ| |exact HW|auto]. apply C3. auto.
    + rewrite Forall_forall in C1.
      assert (Z0 : forall f : gst T -> Z, (forall g, md g = MDone -> f g = 0) -> sumf f (map eg pool) = 0).
      { intros f Hf. clear - C1 Hf. induction (map eg pool) as [|g l IH]; [reflexivity|].
        rewrite sumf_cons, IH, Hf; [reflexivity|apply C1; left; reflexivity|].
        intros x Hx. apply C1. right. exact Hx. }
      apply Hq; apply Z0; intros g Hg; unfold cnt, part1; rewrite Hg; reflexivity.
Qed.

End Consequences.
