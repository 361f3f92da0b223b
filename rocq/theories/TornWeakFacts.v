(** * Elements in parts under the Go memory model: the call does the same *)

From Coq Require Import List ZArith Lia Bool Arith.
From Verif Require Import Lang Trace HappensBefore Torn TornFacts Weak TornWeak.
Import ListNotations.
Open Scope Z_scope.

(** ** Happens-before in an extended trace *)

Lemma hb_app_old tr e i j : hb (tr ++ [e]) i j -> (j < length tr)%nat -> hb tr i j.
Proof.
  intros H. assert (N : forall k x, (k < length tr)%nat -> nth_error (tr ++ [e]) k = Some x -> nth_error tr k = Some x).
  { intros k x Hk E. rewrite nth_error_app1 in E by exact Hk. exact E. }
  induction H as [i j ei ej t L E1 E2 D1 D2|i j t u ej L E1 E2 D|i j t u L E1 E2|i j k H1 IH1 H2 IH2]; intro Hj.
  - apply (hb_program _ i j ei ej t); auto; apply N; auto; lia.
  - apply (hb_go _ i j t u ej); auto; apply N; auto; lia.
  - apply (hb_atomic _ i j t u); auto; apply N; auto; lia.
  - assert (L := hb_order _ _ _ H2). eapply hb_trans; [apply IH1; lia|apply IH2; lia].
Qed.

Lemma hb_next_inv tr e i : hb (tr ++ [e]) i (length tr) ->
  (exists t, doneBy e t /\ knows tr t i) \/ (exists t, e = EvAtomic t) /\ knowsA tr i.
Proof.
  intro H. remember (length tr) as n eqn:En.
  assert (N : forall k x, (k < n)%nat -> nth_error (tr ++ [e]) k = Some x -> nth_error tr k = Some x).
  { intros k x Hk E. rewrite nth_error_app1 in E by lia. exact E. }
  assert (L : forall x, nth_error (tr ++ [e]) n = Some x -> x = e).
  { intros x E. rewrite En, nth_app_new in E. congruence. }
  induction H as [i j ei ej t Lt E1 E2 D1 D2|i j t u ej Lt E1 E2 D|i j t u Lt E1 E2|i j k H1 IH1 H2 IH2].
  - subst j. apply L in E2. subst ej. left. exists t. split; [exact D2|]. eapply knows_self; eauto.
  - subst j. apply L in E2. subst ej. left. exists u. split; [exact D|]. exists i, (EvGo t u). split; [auto|].
    split; [right; eauto|left; reflexivity].
  - subst j. apply L in E2. right. split; [eauto|]. exists i, t. split; [auto|left; reflexivity].
  - subst k. assert (L2 := hb_order _ _ _ H2). assert (B := hb_app_old _ _ _ _ H1 L2).
    destruct (IH2 eq_refl N L) as [(t & D & j1 & ej & K1 & K2 & K3)|(D & j1 & t & K1 & K3)].
    + left. exists t. split; [exact D|]. exists j1, ej. split; [exact K1|]. split; [exact K2|right].
      destruct K3 as [<-|K3]; [exact B|eapply hb_trans; eauto].
    + right. split; [exact D|]. exists j1, t. split; [exact K1|right]. destruct K3 as [<-|K3]; [exact B|eapply hb_trans; eauto].
Qed.

Lemma knows_app_inv tr e u i : (i < length tr)%nat -> knows (tr ++ [e]) u i ->
  knows tr u i \/ (doneBy e u \/ exists p, e = EvGo p u) /\ hb (tr ++ [e]) i (length tr).
Proof.
  intros Hi (j & ej & E & K & B). destruct (nth_app_inv _ _ _ _ E) as [E1|[-> ->]].
  - left. exists j, ej. split; [exact E1|]. split; [exact K|]. destruct B as [B|B]; [left; exact B|right].
    eapply hb_app_old; [exact B|eapply nth_lt; exact E1].
  - right. split; [exact K|]. destruct B as [B|B]; [lia|exact B].
Qed.

Lemma knowsA_app_inv tr e i : (i < length tr)%nat -> knowsA (tr ++ [e]) i ->
  knowsA tr i \/ (exists t, e = EvAtomic t) /\ hb (tr ++ [e]) i (length tr).
Proof.
  intros Hi (j & t & E & B). destruct (nth_app_inv _ _ _ _ E) as [E1|[-> E1]].
  - left. exists j, t. split; [exact E1|]. destruct B as [B|B]; [left; exact B|right].
    eapply hb_app_old; [exact B|eapply nth_lt; exact E1].
  - right. split; [eauto|]. destruct B as [B|B]; [lia|exact B].
Qed.

(** Who knows event [i] of [tr] knows event [i'] of [tr']. *)
Definition xfer (tr tr' : list event) (i i' : nat) : Prop :=
  (forall u, knows tr u i -> knows tr' u i') /\ (knowsA tr i -> knowsA tr' i').

(** [e'] synchronises at least as much as [e]. *)
Definition alike (e e' : event) : Prop :=
  (forall u, doneBy e u -> doneBy e' u) /\ (forall u p, e = EvGo p u -> e' = EvGo p u) /\
  (forall t, e = EvAtomic t -> e' = EvAtomic t).

Lemma alike_refl e : alike e e.
Proof. repeat split; auto. Qed.

Lemma xfer_stay tr tr' e' i i' : xfer tr tr' i i' -> xfer tr (tr' ++ [e']) i i'.
Proof. intros [A B]. split; [intros u H; apply knows_app, A, H|intro H; apply knowsA_app, B, H]. Qed.

Lemma xfer_both tr tr' e e' i i' : (i < length tr)%nat -> alike e e' -> xfer tr tr' i i' -> xfer (tr ++ [e]) (tr' ++ [e']) i i'.
Proof.
  intros Hi (L1 & L2 & L3) [A B]. split.
  - intros u H. destruct (knows_app_inv _ _ _ _ Hi H) as [H1|[H1 H2]]; [apply knows_app, A, H1|].
    assert (K : doneBy e' u \/ exists p, e' = EvGo p u).
    { destruct H1 as [H1|(p & H1)]; [left; apply L1, H1|right; exists p; apply L2, H1]. }
    destruct (hb_next_inv _ _ _ H2) as [(t & D & H3)|[(t & E) H3]].
    + eapply knows_pass; [apply A, H3|apply L1, D|exact K].
    + specialize (L3 t E). subst e'. destruct K as [K|(p & K)]; [|discriminate]. cbn in K. subst u. apply knowsA_acquire, B, H3.
  - intro H. destruct (knowsA_app_inv _ _ _ Hi H) as [H1|[(t & E) H2]]; [apply knowsA_app, B, H1|].
    rewrite (L3 t E). destruct (hb_next_inv _ _ _ H2) as [(u & D & H3)|[_ H3]].
    + subst e. cbn in D. subst u. apply knows_publish, A, H3.
    + apply knowsA_app, B, H3.
Qed.

(** An access. *)
Definition acc (t : nat) (x : Z) (w : bool) : event := if w then EvWrite t x else EvRead t x.

Lemma acc_doneBy t x w u : doneBy (acc t x w) u <-> u = t.
Proof. destruct w; reflexivity. Qed.

Lemma acc_touches t x w : touches (acc t x w) x w.
Proof. destruct w; [right|left]; (split; [reflexivity|exists t; reflexivity]). Qed.

Lemma acc_touches_inv t x w y w' : touches (acc t x w) y w' -> y = x /\ w' = w.
Proof. destruct w; intros [(-> & u & E)|(-> & u & E)]; try discriminate; injection E as <- <-; auto. Qed.

Lemma step_touches t y w : ~ touches (EvStep t) y w.
Proof. intros [(_ & u & E)|(_ & u & E)]; discriminate. Qed.

Lemma alike_step t x w : alike (acc t x w) (EvStep t).
Proof. split; [|split]; [intros u H; apply acc_doneBy in H; exact H| |]; destruct w; discriminate. Qed.

Lemma xfer_new tr tr' t x w i' : knows tr' t i' -> xfer (tr ++ [acc t x w]) tr' (length tr) i'.
Proof.
  intro K. assert (B : forall j ej, nth_error (tr ++ [acc t x w]) j = Some ej -> hbeq (tr ++ [acc t x w]) (length tr) j -> ej = acc t x w).
  { intros j ej E H. destruct (nth_app_inv _ _ _ _ E) as [E1|[-> ->]]; [|reflexivity].
    apply nth_lt in E1. destruct H as [H|H]; [lia|apply hb_order in H; lia]. }
  split.
  - intros u (j & ej & E & D & H). rewrite (B _ _ E H) in D. destruct D as [D|(p & D)].
    + apply acc_doneBy in D. subst u. exact K.
    + destruct w; discriminate.
  - intros (j & u & E & H). specialize (B _ _ E H). destruct w; discriminate.
Qed.

Lemma race_app tr e : dataRace (tr ++ [e]) -> dataRace tr \/
  exists i ei y wi wj, nth_error tr i = Some ei /\ touches ei y wi /\ touches e y wj /\ (wi = true \/ wj = true) /\
    ~ hb (tr ++ [e]) i (length tr).
Proof.
  intros (i & j & ei & ej & y & wi & wj & L & E1 & E2 & T1 & T2 & W & N).
  destruct (nth_app_inv _ _ _ _ E2) as [E3|[-> ->]].
  - left. exists i, j, ei, ej, y, wi, wj. split; [exact L|]. split; [rewrite nth_error_app1 in E1 by (apply nth_lt in E3; lia); exact E1|].
    split; [exact E3|]. split; [exact T1|]. split; [exact T2|]. split; [exact W|]. intro H. apply N, hb_app, H.
  - right. exists i, ei, y, wi, wj. split; [rewrite nth_error_app1 in E1 by lia; exact E1|]. auto.
Qed.

(** ** Places *)

Lemma place_div np x q : (q < np)%nat -> place np x q / Z.of_nat np = x.
Proof. intro H. unfold place. rewrite Z.div_add_l by lia. rewrite Z.div_small by lia. lia. Qed.

Lemma place_mod np x q : (q < np)%nat -> Z.to_nat (place np x q mod Z.of_nat np) = q.
Proof. intro H. unfold place. rewrite Z.add_comm, Z.mod_add, Z.mod_small by lia. apply Nat2Z.id. Qed.

Lemma place_inj np x q x' q' : (q < np)%nat -> (q' < np)%nat -> place np x q = place np x' q' -> x = x' /\ q = q'.
Proof.
  intros H H' E. split.
  - rewrite <- (place_div np x q H), E. apply place_div, H'.
  - rewrite <- (place_mod np x q H), E. apply place_mod, H'.
Qed.

Lemma flat_place {V} np (F : Z -> nat -> V) x q : (q < np)%nat -> flat np F (place np x q) = F x q.
Proof. intro H. unfold flat. rewrite place_div, place_mod by exact H. reflexivity. Qed.

(** ** Lists of claims *)

Section Claims.
Context {X : Type}.

Definition keepsBut (t : nat) (l l' : list X) : Prop := forall u z, u <> t -> nth_error l u = Some z -> nth_error l' u = Some z.

Lemma keepsBut_mid (l1 : list X) a b l2 l3 : keepsBut (length l1) (l1 ++ a :: l2) (l1 ++ b :: l2 ++ l3).
Proof.
  intros u z Hu H. destruct (Nat.lt_ge_cases u (length l1)) as [L|L].
  - rewrite nth_error_app1 in * by exact L. exact H.
  - rewrite nth_error_app2 in * by exact L. destruct (u - length l1)%nat as [|d] eqn:E; [lia|]. cbn in *.
    rewrite nth_error_app1; [exact H|]. eapply nth_lt; exact H.
Qed.

Lemma keepsBut_cons t (z : X) l l' : keepsBut t l l' -> keepsBut (S t) (z :: l) (z :: l').
Proof. intros H [|u] y Hu E; [exact E|]. cbn in *. apply H; [lia|exact E]. Qed.

Lemma nth_mid (l1 : list X) a l2 : nth_error (l1 ++ a :: l2) (length l1) = Some a.
Proof. rewrite nth_error_app2 by lia. rewrite Nat.sub_diag. reflexivity. Qed.

End Claims.

Section Parts.
Context {P T R V : Type}.
Variable np : nat.
Variable part : T -> nat -> V.
Variable join : (nat -> V) -> T.
Variable body : P -> cmd P T unit.
Variables (M : Z) (Rg : Z -> Prop) (good : T -> Prop).

Notation tst := (@tst P T R V).
Notation pend := (@pend V).
Notation claimed := (option (Z * bool) * pend)%type.

Hypothesis Hjoin : forall v f, good v -> (forall q, (q < np)%nat -> f q = part v q) -> join f = v.

Lemma elocal_tlocal {A} mg t k e (c : cmd P T A) p F n ch c' p' F' n' ch' fs :
  elocal np part join body mg t k e c p F n ch c' p' F' n' ch' fs -> tlocal np part join body mg c p F n ch c' p' F' n' ch' fs.
Proof.
  destruct 1; [eapply tl_read|eapply tl_read_done|eapply tl_write|eapply tl_write_done|eapply tl_other]; eassumption.
Qed.

Lemma etstep_tstep e (s s' : tst) : etstep np part join body e s s' -> Torn.tstep np part join body s s'.
Proof.
  destruct 1; try (econstructor; eassumption); econstructor; eapply elocal_tlocal; eassumption.
Qed.

Lemma tlocal_elocal {A} mg t k (c : cmd P T A) p F n ch c' p' F' n' ch' fs :
  tlocal np part join body mg c p F n ch c' p' F' n' ch' fs -> exists e, elocal np part join body mg t k e c p F n ch c' p' F' n' ch' fs.
Proof.
  destruct 1; eexists; [eapply el_read|eapply el_read_done|eapply el_write|eapply el_write_done|eapply el_other]; eassumption.
Qed.

Lemma tstep_etstep (s s' : tst) : Torn.tstep np part join body s s' -> exists e, etstep np part join body e s s'.
Proof.
  destruct 1 as [c p ts F n mg ch c' p' F' n' ch' fs Hl|g0 l1 c p l2 F n mg ch c' p' F' n' ch' fs Hl| | | | | |].
  - destruct (tlocal_elocal mg 0 (length ts) c p F n ch c' p' F' n' ch' fs Hl) as (e & He). exists e. apply es_main, He.
  - destruct (tlocal_elocal mg (S (length l1)) (length (l1 ++ (c, p) :: l2)) c p F n ch c' p' F' n' ch' fs Hl) as (e & He). exists e. apply es_thr, He.
  - eexists. eapply es_to_main; eassumption.
  - eexists. eapply es_from_main; eassumption.
  - eexists. eapply es_thr_thr1; eassumption.
  - eexists. eapply es_thr_thr2; eassumption.
  - eexists. eapply es_stale_main; eassumption.
  - eexists. eapply es_stale_thr; eassumption.
Qed.

Lemma etexec_trun tr (s s' : tst) : etexec np part join body M Rg tr s s' -> trun np part join body M Rg (length tr) s s'.
Proof.
  induction 1; [constructor| |].
  - rewrite app_length. cbn. rewrite Nat.add_1_r. eapply trun_prog; [eassumption|]. eapply etstep_tstep; eassumption.
  - eapply trun_env; eassumption.
Qed.

Lemma trun_etexec n (s s' : tst) : trun np part join body M Rg n s s' -> exists tr, length tr = n /\ etexec np part join body M Rg tr s s'.
Proof.
  induction 1 as [s|n s s1 s2 H IH Hs|n s m ts F c mg ch F' mg' H IH Hm Hf].
  - exists []. split; [reflexivity|constructor].
  - destruct IH as (tr & E & He). destruct (tstep_etstep _ _ Hs) as (e & Hs'). exists (tr ++ [e]).
    split; [rewrite app_length; cbn; lia|eapply etexec_prog; eassumption].
  - destruct IH as (tr & E & He). exists tr. split; [exact E|]. eapply etexec_env; eassumption.
Qed.

(** What one goroutine does by itself, in the worlds of parts and of whole elements. *)
Lemma elocal_sim {A} mg t k e (c : cmd P T A) p F n ch c' p' F' n' ch' fs m (rest : list gor) :
  elocal np part join body mg t k e c p F n ch c' p' F' n' ch' fs ->
  ginv np part Rg F m ((act c, p) :: rest) -> (forall g, In g rest -> apart (act c, p) g) ->
  (forall x w, access c = Some (x, w) -> Rg x) -> (forall x, Rg x -> good (m x)) ->
  exists m', ginv np part Rg F' m' ((act c', p') :: rest) /\
    ((exists x w q, access c = Some (x, w) /\ (q < np)%nat /\ e = acc t (place np x q) w /\ p q = None /\ p' q <> None /\
        (forall q', p q' <> None -> p' q' <> None) /\ c' = c /\ n' = n /\ ch' = ch /\ fs = [] /\ m' = m) \/
     (exec_local body c (Sh m n mg ch) = Some (c', Sh m' n' mg ch', fs) /\
        ((access c = None /\ e = label t k c) \/
         (exists x w, access c = Some (x, w) /\ label t k c = acc t x w /\ e = EvStep t)))).
Proof.
  intros H Hi Hap Hrg Hgood.
  destruct (tlocal_sim np part join body M Rg good Hjoin mg c p F n ch c' p' F' n' ch' fs m rest (elocal_tlocal _ _ _ _ _ _ _ _ _ _ _ _ _ _ _ H) Hi Hap Hrg Hgood)
    as (m' & Hi' & Hd).
  exists m'. split; [exact Hi'|].
  assert (Q0 : count np (@idle V) = 0%nat) by apply count_idle.
  assert (S1 : forall (p : pend) q u, pset p q u q <> None) by (intros p1 q u; unfold pset; rewrite Nat.eqb_refl; discriminate).
  assert (S2 : forall (p : pend) q u q', p q' <> None -> pset p q u q' <> None) by (intros p1 q u q' N; unfold pset; destruct (Nat.eqb q' q); [discriminate|exact N]).
  destruct H as [c p F n ch x kk q Hv Hq Hp|c p F n ch x kk f Hv Hall|c p F n ch x v kk q Hv Hq Hp|c p F n ch x v kk Hv Hall|c p F n ch m1 c' n' ch' fs Ha Hx].
  - destruct Hd as [(_ & _ & _ & _ & -> & _)|(_ & E & _)]; [|exfalso; apply (S1 p q (F x q)); rewrite E; reflexivity].
    left. exists x, false, q. split; [unfold access; rewrite Hv; reflexivity|]. split; [exact Hq|]. split; [reflexivity|]. auto 12.
  - destruct Hd as [(_ & _ & _ & _ & _ & E)|(Hx & _)]; [rewrite Q0 in E; discriminate|]. right. split; [exact Hx|]. right. exists x, false.
    unfold access, label. rewrite Hv. auto.
  - destruct Hd as [(_ & _ & _ & _ & -> & _)|(_ & E & _)]; [|exfalso; apply (S1 p q (part v q)); rewrite E; reflexivity].
    left. exists x, true, q. split; [unfold access; rewrite Hv; reflexivity|]. split; [exact Hq|]. split; [reflexivity|]. auto 12.
  - destruct Hd as [(_ & _ & _ & _ & _ & E)|(Hx & _)]; [rewrite Q0 in E; discriminate|]. right. split; [exact Hx|]. right. exists x, true.
    unfold access, label. rewrite Hv. auto.
  - destruct Hd as [(_ & _ & _ & _ & _ & E)|(Hx' & _)]; [rewrite Q0 in E; discriminate|]. right. split; [exact Hx'|]. left. auto.
Qed.

(** ** Executions *)

Variable s0 : st P T R.
Hypothesis Hrace : forall k s, exec body M Rg k s0 s -> ~ race s.
Hypothesis Hbound : forall k s x w, exec body M Rg k s0 s -> In (Some (x, w)) (accesses s) -> Rg x.
Hypothesis Hgood : forall k s x, exec body M Rg k s0 s -> Rg x -> good (mem (sh s) x).
Hypothesis Htrace : forall tr s, texec body M Rg tr s0 s -> ~ dataRace tr.

Notation related := (related np part body M Rg s0).

(** One step of the call, in the worlds of parts and of whole elements. *)
Definition esimulated (e : event) (s s' : tst) (m m' : Z -> T) : Prop :=
  ginv np part Rg (tmem s') m' (gors s') /\
  ((erase s' m' = erase s m /\ exists t x w q p p',
      nth_error (claims s) t = Some (Some (x, w), p) /\ (q < np)%nat /\ e = acc t (place np x q) w /\
      nth_error (claims s') t = Some (Some (x, w), p') /\ p' q <> None /\ (forall q', p q' <> None -> p' q' <> None) /\
      keepsBut t (claims s) (claims s')) \/
   (Trace.tstep body e (erase s m) (erase s' m') /\ (forall y w, ~ touches e y w) /\
      (forall u x w p, nth_error (claims s) u = Some (Some (x, w), p) -> nth_error (claims s') u = Some (Some (x, w), p))) \/
   (exists t x w p, Trace.tstep body (acc t x w) (erase s m) (erase s' m') /\ e = EvStep t /\
      nth_error (claims s) t = Some (Some (x, w), p) /\ keepsBut t (claims s) (claims s'))).

Lemma label_quiet {A} t k (c : cmd P T A) y w : access c = None -> ~ touches (label t k c) y w.
Proof.
  unfold access, label. intros H [(_ & u & E)|(_ & u & E)]; destruct (view c); discriminate.
Qed.

Lemma comm_quiet t u y w : ~ touches (EvComm t u) y w.
Proof. intros [(_ & v & E)|(_ & v & E)]; discriminate. Qed.

Lemma keeps_one t (l l' : list claimed) (z : pend) : keepsBut t l l' -> nth_error l t = Some (None, z) ->
  forall u x w p, nth_error l u = Some (Some (x, w), p) -> nth_error l' u = Some (Some (x, w), p).
Proof. intros H E u x w p Hu. apply H; [|exact Hu]. intros ->. congruence. Qed.

Lemma keeps_two (l1 l2 l3 : list claimed) (z1 z2 : pend) b1 b2 :
  forall u x w p, nth_error (l1 ++ (None, z1) :: l2 ++ (None, z2) :: l3) u = Some (Some (x, w), p) ->
    nth_error (l1 ++ b1 :: l2 ++ b2 :: l3) u = Some (Some (x, w), p).
Proof.
  intros u x w p E.
  assert (E1 : nth_error (l1 ++ b1 :: l2 ++ (None, z2) :: l3) u = Some (Some (x, w), p)).
  { assert (K := keepsBut_mid l1 (None, z1) b1 (l2 ++ (None, z2) :: l3) []). rewrite app_nil_r in K.
    eapply (keeps_one (length l1)); [exact K|apply nth_mid|exact E]. }
  replace (l1 ++ b1 :: l2 ++ b2 :: l3) with ((l1 ++ b1 :: l2) ++ b2 :: l3) by (rewrite <- app_assoc; reflexivity).
  replace (l1 ++ b1 :: l2 ++ (None, z2) :: l3) with ((l1 ++ b1 :: l2) ++ (None, z2) :: l3) in E1 by (rewrite <- app_assoc; reflexivity).
  assert (K := keepsBut_mid (l1 ++ b1 :: l2) (None, z2) b2 l3 []). rewrite app_nil_r in K.
  eapply (keeps_one (length (l1 ++ b1 :: l2))); [exact K|apply nth_mid|exact E1].
Qed.

Lemma access_none {A} (c : cmd P T A) : match view c with HRead _ _ | HWrite _ _ _ => False | _ => True end -> access c = None.
Proof. unfold access. destruct (view c); tauto. Qed.

Lemma claims_new (fs : list (cmd P T unit)) (l : list (cmd P T unit * pend)) :
  map claim (l ++ map (fun d => (d, idle)) fs) = map claim l ++ map claim (map (fun d => (d, idle)) fs).
Proof. apply map_app. Qed.

Lemma etstep_sim k s s' e m : related k s m -> etstep np part join body e s s' -> exists m', esimulated e s s' m m'.
Proof.
  intros [He Hi] Hs. assert (Hr := Hrace _ _ He). assert (Hg := fun x => Hgood _ _ x He). cbn [erase sh mem] in Hg.
  destruct Hs as [e c p ts F n mg ch c' p' F' n' ch' fs Hl|e g0 l1 c p l2 F n mg ch c' p' F' n' ch' fs Hl
    |c0 p0 l1 c p l2 F n mg ch v kk k' Hc Hm|c0 p0 l1 c p l2 F n mg ch v kk k' Hm Hc
    |g0 l1 c1 p1 l2 c2 p2 l3 F n mg ch v kk k' H1 H2|g0 l1 c1 p1 l2 c2 p2 l3 F n mg ch v kk k' H1 H2
    |c0 p0 ts F n mg ch kk z Hv|g0 l1 c p l2 F n mg ch kk z Hv].
  - unfold gors in Hi; cbn [tmain tthr tmem] in Hi.
    destruct (elocal_sim mg 0 (length ts) e c p F n ch c' p' F' n' ch' fs m (map gact ts) Hl Hi) as (m' & Hi' & Hd).
    + apply (race_apart (R := R) _ m [] _ _ Hr). reflexivity.
    + eapply (bound_access body M Rg s0 Hbound c p _ m); [exact He|]. left. reflexivity.
    + exact Hg.
    + assert (KB : keepsBut 0 (claims (TSt (c, p) ts F n mg ch)) (claims (TSt (c', p') (ts ++ map (fun d => (d, idle)) fs) F' n' mg ch'))).
      { unfold claims. cbn [tmain tthr]. rewrite claims_new. apply (keepsBut_mid []). }
      exists m'. split.
      * eapply ginv_sub; [exact Hi'| |]; unfold gors; cbn [tmain tthr]; rewrite map_app.
        -- intros g [<-|H]; [left; left; reflexivity|]. apply in_app_or in H. destruct H as [H|H]; [left; right; exact H|right; eapply new_idle, H].
        -- intros g [<-|H]; left; [left; reflexivity|right; apply in_or_app; left; exact H].
      * destruct Hd as [(x & w & q & Ha & Hq & -> & _ & P1 & P2 & -> & -> & -> & -> & ->)|(Hx & [(Ha & ->)|(x & w & Ha & Hlab & ->)])].
        -- left. split; [unfold erase; cbn [map tmain tthr tgor tmax tchans fst]; rewrite app_nil_r; reflexivity|].
           exists 0%nat, x, w, q, p, p'. split; [cbn; unfold claim; cbn; rewrite Ha; reflexivity|]. split; [exact Hq|]. split; [reflexivity|].
           split; [cbn; unfold claim; cbn; rewrite Ha; reflexivity|auto].
        -- right. left. split; [|split; [intros y w; apply label_quiet, Ha|]].
           ++ unfold erase. cbn [tmain tthr tgor tmax tchans fst]. rewrite map_app, erase_new, <- (map_length fst ts). apply tstep_main. exact Hx.
           ++ eapply (keeps_one 0); [exact KB|]. cbn. unfold claim. cbn. rewrite Ha. reflexivity.
        -- right. right. exists 0%nat, x, w, p. split; [|split; [reflexivity|split; [cbn; unfold claim; cbn; rewrite Ha; reflexivity|exact KB]]].
           rewrite <- Hlab. unfold erase. cbn [tmain tthr tgor tmax tchans fst]. rewrite map_app, erase_new, <- (map_length fst ts). apply tstep_main. exact Hx.
  - assert (Hi2 : ginv np part Rg F m ((act c, p) :: (gact g0 :: map gact l1 ++ map gact l2))).
    { eapply ginv_sub; [exact Hi| |]; unfold gors; cbn [tmain tthr]; rewrite map_app; cbn [map]; intros g H; left; cbn [In] in *; rewrite in_app_iff in *; cbn [In] in *; unfold gact at 1 in H || unfold gact at 2; cbn [fst snd] in *; tauto. }
    destruct (elocal_sim mg _ _ e c p F n ch c' p' F' n' ch' fs m _ Hl Hi2) as (m' & Hi' & Hd).
    + apply (race_apart (R := R) _ m (gact g0 :: map gact l1) _ (map gact l2) Hr). unfold gors; cbn [tmain tthr]. rewrite map_app. reflexivity.
    + eapply (bound_access body M Rg s0 Hbound c p _ m); [exact He|]. right. cbn [tthr]. rewrite map_app. apply in_or_app. right. left. reflexivity.
    + exact Hg.
    + assert (KB : keepsBut (S (length l1)) (claims (TSt g0 (l1 ++ (c, p) :: l2) F n mg ch)) (claims (TSt g0 (l1 ++ (c', p') :: l2 ++ map (fun d => (d, idle)) fs) F' n' mg ch'))).
      { unfold claims. cbn [tmain tthr]. apply keepsBut_cons. rewrite !map_app. cbn [map]. rewrite map_app, <- (map_length claim l1). apply keepsBut_mid. }
      assert (N1 : nth_error (claims (TSt g0 (l1 ++ (c, p) :: l2) F n mg ch)) (S (length l1)) = Some (access c, p)).
      { unfold claims. cbn [tmain tthr nth_error]. rewrite map_app. cbn [map]. rewrite <- (map_length claim l1). apply nth_mid. }
      assert (N2 : nth_error (claims (TSt g0 (l1 ++ (c', p') :: l2 ++ map (fun d => (d, idle)) fs) F' n' mg ch')) (S (length l1)) = Some (access c', p')).
      { unfold claims. cbn [tmain tthr nth_error]. rewrite map_app. cbn [map]. rewrite <- (map_length claim l1). apply nth_mid. }
      assert (LE : length (l1 ++ (c, p) :: l2) = length (map fst l1 ++ c :: map fst l2)).
      { rewrite !app_length. cbn. rewrite !map_length. reflexivity. }
      exists m'. split.
      * eapply ginv_sub; [exact Hi'| |]; unfold gors; cbn [tmain tthr]; rewrite map_app; cbn [map]; rewrite map_app; cbn [tmem].
        -- intros g [<-|H]; [left; right; left; reflexivity|]. apply in_app_or in H. destruct H as [H|[<-|H]]; [left; right; right; apply in_or_app; left; exact H|left; left; reflexivity|].
           apply in_app_or in H. destruct H as [H|H]; [left; right; right; apply in_or_app; right; exact H|right; eapply new_idle, H].
        -- intros g [<-|[<-|H]]; left; [right; apply in_or_app; right; left; reflexivity|left; reflexivity|right].
           apply in_app_or in H. apply in_or_app. destruct H as [H|H]; [left; exact H|right; right; apply in_or_app; left; exact H].
      * destruct Hd as [(x & w & q & Ha & Hq & -> & _ & P1 & P2 & -> & -> & -> & -> & ->)|(Hx & [(Ha & ->)|(x & w & Ha & Hlab & ->)])].
        -- left. split; [unfold erase; cbn [map tmain tthr tgor tmax tchans fst]; rewrite app_nil_r, !map_app; reflexivity|].
           exists (S (length l1)), x, w, q, p, p'. rewrite N1, N2, Ha. auto 10.
        -- right. left. split; [|split; [intros y w; apply label_quiet, Ha|]].
           ++ unfold erase. cbn [tmain tthr tgor tmax tchans fst]. rewrite !map_app. cbn [map fst]. rewrite map_app, erase_new, LE, <- (map_length fst l1). apply tstep_thr. exact Hx.
           ++ eapply keeps_one; [exact KB|]. rewrite N1, Ha. reflexivity.
        -- right. right. exists (S (length l1)), x, w, p. split; [|split; [reflexivity|split; [rewrite N1, Ha; reflexivity|exact KB]]].
           rewrite <- Hlab. unfold erase. cbn [tmain tthr tgor tmax tchans fst]. rewrite !map_app. cbn [map fst]. rewrite map_app, erase_new, LE, <- (map_length fst l1). apply tstep_thr. exact Hx.
  - assert (A1 : act c = None) by (unfold act; rewrite Hc; reflexivity). assert (A2 : act c0 = None) by (unfold act; rewrite Hm; reflexivity).
    assert (B1 : access c = None) by (unfold access; rewrite Hc; reflexivity). assert (B2 : access c0 = None) by (unfold access; rewrite Hm; reflexivity).
    exists m. split; [|right; left; split; [|split; [intros y w; apply comm_quiet|]]].
    + eapply ginv_sub; [exact Hi| |]; unfold gors; cbn [tmain tthr]; rewrite !map_app; cbn [map]; intros g H; destruct H as [<-|H]; cbn [gact fst snd]; auto;
        apply in_app_or in H; destruct H as [H|[<-|H]]; cbn [gact fst snd]; auto; left; right; apply in_or_app; cbn [In]; auto.
    + unfold erase. cbn [tmain tthr tgor tmax tchans fst]. rewrite !map_app. cbn [map fst]. rewrite <- (map_length fst l1). eapply tstep_to_main; eassumption.
    + unfold claims. cbn [tmain tthr]. rewrite !map_app. cbn [map]. change (claim (c0, p0)) with (access c0, p0). change (claim (c, p)) with (access c, p). rewrite B1, B2. intros [|u] x w q E; [discriminate|]. cbn [nth_error] in *.
      rewrite <- (app_nil_r (map claim l2)). eapply (keeps_one (length (map claim l1))); [apply keepsBut_mid|apply nth_mid|exact E].
  - assert (A1 : act c = None) by (unfold act; rewrite Hc; reflexivity). assert (A2 : act c0 = None) by (unfold act; rewrite Hm; reflexivity).
    assert (B1 : access c = None) by (unfold access; rewrite Hc; reflexivity). assert (B2 : access c0 = None) by (unfold access; rewrite Hm; reflexivity).
    exists m. split; [|right; left; split; [|split; [intros y w; apply comm_quiet|]]].
    + eapply ginv_sub; [exact Hi| |]; unfold gors; cbn [tmain tthr]; rewrite !map_app; cbn [map]; intros g H; destruct H as [<-|H]; cbn [gact fst snd]; auto;
        apply in_app_or in H; destruct H as [H|[<-|H]]; cbn [gact fst snd]; auto; left; right; apply in_or_app; cbn [In]; auto.
    + unfold erase. cbn [tmain tthr tgor tmax tchans fst]. rewrite !map_app. cbn [map fst]. rewrite <- (map_length fst l1). eapply tstep_from_main; eassumption.
    + unfold claims. cbn [tmain tthr]. rewrite !map_app. cbn [map]. change (claim (c0, p0)) with (access c0, p0). change (claim (c, p)) with (access c, p). rewrite B1, B2. intros [|u] x w q E; [discriminate|]. cbn [nth_error] in *.
      rewrite <- (app_nil_r (map claim l2)). eapply (keeps_one (length (map claim l1))); [apply keepsBut_mid|apply nth_mid|exact E].
  - assert (A1 : act c1 = None) by (unfold act; rewrite H1; reflexivity). assert (A2 : act c2 = None) by (unfold act; rewrite H2; reflexivity).
    assert (B1 : access c1 = None) by (unfold access; rewrite H1; reflexivity). assert (B2 : access c2 = None) by (unfold access; rewrite H2; reflexivity).
    exists m. split; [|right; left; split; [|split; [intros y w; apply comm_quiet|]]].
    + eapply ginv_sub; [exact Hi| |]; unfold gors; cbn [tmain tthr]; repeat (rewrite !map_app; cbn [map]); intros g H; destruct H as [<-|H]; [left; left; reflexivity| |left; left; reflexivity|];
        apply in_app_or in H; (destruct H as [H|[<-|H]]; cbn [gact fst snd]; auto; [left; right; apply in_or_app; auto|]);
        apply in_app_or in H; (destruct H as [H|[<-|H]]; cbn [gact fst snd]; auto); left; right; rewrite in_app_iff; cbn [In]; rewrite in_app_iff; cbn [In]; auto.
    + unfold erase. cbn [tmain tthr tgor tmax tchans fst]. repeat (rewrite !map_app; cbn [map fst]). rewrite <- (map_length fst l1), <- (map_length fst l2). eapply tstep_thr_thr1; eassumption.
    + unfold claims. cbn [tmain tthr]. repeat (rewrite !map_app; cbn [map]). change (claim (c1, p1)) with (access c1, p1). change (claim (c2, p2)) with (access c2, p2). rewrite B1, B2. intros [|u] x w q E; [exact E|]. cbn [nth_error] in *.
      eapply keeps_two; exact E.
  - assert (A1 : act c1 = None) by (unfold act; rewrite H1; reflexivity). assert (A2 : act c2 = None) by (unfold act; rewrite H2; reflexivity).
    assert (B1 : access c1 = None) by (unfold access; rewrite H1; reflexivity). assert (B2 : access c2 = None) by (unfold access; rewrite H2; reflexivity).
    exists m. split; [|right; left; split; [|split; [intros y w; apply comm_quiet|]]].
    + eapply ginv_sub; [exact Hi| |]; unfold gors; cbn [tmain tthr]; repeat (rewrite !map_app; cbn [map]); intros g H; destruct H as [<-|H]; [left; left; reflexivity| |left; left; reflexivity|];
        apply in_app_or in H; (destruct H as [H|[<-|H]]; cbn [gact fst snd]; auto; [left; right; apply in_or_app; auto|]);
        apply in_app_or in H; (destruct H as [H|[<-|H]]; cbn [gact fst snd]; auto); left; right; rewrite in_app_iff; cbn [In]; rewrite in_app_iff; cbn [In]; auto.
    + unfold erase. cbn [tmain tthr tgor tmax tchans fst]. repeat (rewrite !map_app; cbn [map fst]). rewrite <- (map_length fst l1), <- (map_length fst l2). eapply tstep_thr_thr2; eassumption.
    + unfold claims. cbn [tmain tthr]. repeat (rewrite !map_app; cbn [map]). change (claim (c1, p1)) with (access c1, p1). change (claim (c2, p2)) with (access c2, p2). rewrite B1, B2. intros [|u] x w q E; [exact E|]. cbn [nth_error] in *.
      eapply keeps_two; exact E.
  - assert (A2 : act c0 = None) by (unfold act; rewrite Hv; reflexivity). assert (B2 : access c0 = None) by (unfold access; rewrite Hv; reflexivity).
    exists m. split; [|right; left; split; [|split; [intros y w; apply step_touches|]]].
    + eapply ginv_sub; [exact Hi| |]; unfold gors; cbn [tmain tthr]; intros g [<-|H]; cbn [gact fst snd]; auto; left; right; exact H.
    + unfold erase. cbn [tmain tthr tgor tmax tchans fst]. apply tstep_stale_main. exact Hv.
    + unfold claims. cbn [tmain tthr]. change (claim (c0, p0)) with (access c0, p0). rewrite B2. intros [|u] x w q E; [discriminate|]. exact E.
  - assert (A2 : act c = None) by (unfold act; rewrite Hv; reflexivity). assert (B2 : access c = None) by (unfold access; rewrite Hv; reflexivity).
    exists m. split; [|right; left; split; [|split; [intros y w; apply step_touches|]]].
    + eapply ginv_sub; [exact Hi| |]; unfold gors; cbn [tmain tthr]; rewrite !map_app; cbn [map]; intros g H; destruct H as [<-|H]; [left; left; reflexivity| |left; left; reflexivity|];
        apply in_app_or in H; destruct H as [H|[<-|H]]; cbn [gact fst snd]; auto; left; right; apply in_or_app; cbn [In]; auto.
    + unfold erase. cbn [tmain tthr tgor tmax tchans fst]. rewrite !map_app. cbn [map fst]. rewrite <- (map_length fst l1). eapply tstep_stale_thr; eassumption.
    + unfold claims. cbn [tmain tthr]. rewrite !map_app. cbn [map]. change (claim (c, p)) with (access c, p). rewrite B2. intros [|u] x w q E; [exact E|]. cbn [nth_error] in *.
      rewrite <- (app_nil_r (map claim l2)). eapply (keeps_one (length (map claim l1))); [apply keepsBut_mid|apply nth_mid|exact E].
Qed.

(** ** Traces in parts and with whole elements *)

(** Every access to a part belongs to an access to the element: one that is over, known at least to
    those who know it, or the one its goroutine is in. *)
Definition covered (tr' : list event) (s : tst) (tr : list event) : Prop :=
  forall i' ei y w, nth_error tr' i' = Some ei -> touches ei y w ->
    exists t x q, (q < np)%nat /\ y = place np x q /\ ei = acc t y w /\
      ((exists i, nth_error tr i = Some (acc t x w) /\ xfer tr tr' i i') \/
       (exists p, nth_error (claims s) t = Some (Some (x, w), p))).

Definition linked (tr' : list event) (s : tst) (tr : list event) (m : Z -> T) : Prop :=
  texec body M Rg tr s0 (erase s m) /\ ginv np part Rg (tmem s) m (gors s) /\ ~ dataRace tr' /\ covered tr' s tr.

Lemma linked_related tr' s tr m : linked tr' s tr m -> related (length tr) s m.
Proof. intros (H & Hi & _). split; [apply texec_exec, H|exact Hi]. Qed.

Lemma touches_acc e y w t : touches e y w -> doneBy e t -> e = acc t y w.
Proof. intros H D. destruct (touches_doneBy e y w t H D) as [[-> ->]|[-> ->]]; reflexivity. Qed.

(** An access to a part adds no race if the access to the element adds none and nobody else is in a
    conflicting one. *)
Lemma part_norace tr' s tr t x w q : covered tr' s tr -> ~ dataRace tr' -> ~ dataRace (tr ++ [acc t x w]) -> (q < np)%nat ->
  (forall u w' p, nth_error (claims s) u = Some (Some (x, w'), p) -> u = t \/ (w = false /\ w' = false)) ->
  ~ dataRace (tr' ++ [acc t (place np x q) w]).
Proof.
  intros Hc Hno Hno' Hq Hcl Hr. destruct (race_app _ _ Hr) as [H|(i' & ei & y & wi & wj & E & T1 & T2 & W & N)]; [exact (Hno H)|].
  apply acc_touches_inv in T2. destruct T2 as [-> ->].
  destruct (Hc _ _ _ _ E T1) as (u & x0 & q0 & Hq0 & Ey & -> & D). apply place_inj in Ey; [|exact Hq|exact Hq0]. destruct Ey as [<- <-].
  destruct (Nat.eq_dec u t) as [->|Nu].
  { apply N. eapply hb_program; [eapply nth_lt; exact E|apply nth_app_old; exact E|apply nth_app_new| |]; apply acc_doneBy; reflexivity. }
  destruct D as [(i & Ei & [X _])|(p & Hp)].
  - apply Hno'. exists i, (length tr), (acc u x wi), (acc t x w), x, wi, w.
    split; [eapply nth_lt; exact Ei|]. split; [apply nth_app_old; exact Ei|]. split; [apply nth_app_new|].
    split; [apply acc_touches|]. split; [apply acc_touches|]. split; [exact W|]. intro B. apply N.
    destruct (hb_next_inv _ _ _ B) as [(v & D & K)|[(v & D) _]]; [|destruct w; discriminate].
    apply acc_doneBy in D. subst v. eapply knows_next; [apply X, K|apply acc_doneBy; reflexivity].
  - destruct (Hcl u wi p Hp) as [?|[-> ->]]; [tauto|]. destruct W; discriminate.
Qed.

Lemma claims_accesses (s : tst) m u : nth_error (accesses (erase s m)) u = match nth_error (claims s) u with Some (a, _) => Some a | None => None end.
Proof.
  assert (E : map fst (claims s) = accesses (erase s m)).
  { unfold claims, accesses. cbn [map erase main thr claim fst]. f_equal. rewrite !map_map. reflexivity. }
  rewrite <- E, nth_error_map. destruct (nth_error (claims s) u) as [[a p]|]; reflexivity.
Qed.

Lemma claims_apart (s : tst) m t x w p : ~ race (erase s m) -> nth_error (claims s) t = Some (Some (x, w), p) ->
  forall u w' p', nth_error (claims s) u = Some (Some (x, w'), p') -> u = t \/ (w = false /\ w' = false).
Proof.
  intros Hr Ht u w' p' Hu. destruct (Nat.eq_dec u t) as [->|N]; [left; reflexivity|right].
  assert (D : ~ (w = true \/ w' = true)).
  { intro D. apply Hr. exists t, u, x, w, w'. split; [congruence|]. rewrite !claims_accesses, Ht, Hu. auto. }
  destruct w, w'; tauto.
Qed.

(** Whoever is in an access can complete it. *)
Lemma claim_step (s : tst) m t x w p : nth_error (claims s) t = Some (Some (x, w), p) ->
  exists s1, Trace.tstep body (acc t x w) (erase s m) s1.
Proof.
  assert (G : forall A (c : cmd P T A) k sm, access c = Some (x, w) -> label t k c = acc t x w /\ exists c' s', exec_local body c sm = Some (c', s', [])).
  { intros A c k sm. unfold access, label, exec_local. destruct (view c); intro E; try discriminate; injection E as <- <-; split; eauto. }
  destruct s as [[c pc] ts F n mg ch]. unfold claims, erase. cbn [tmain tthr tgor tmax tchans fst].
  destruct t as [|t]; cbn [nth_error]; intro H.
  - injection H as H _. cbn [fst] in H. destruct (G _ c (length (map fst ts)) (Sh m n mg ch) H) as (E & c' & s' & Hx).
    eexists. rewrite <- E. apply tstep_main. exact Hx.
  - rewrite nth_error_map in H. destruct (nth_error ts t) as [[c1 p1]|] eqn:En; [|discriminate]. cbn in H. injection H as H _. cbn [fst] in H.
    destruct (nth_error_split _ _ En) as (l1 & l2 & -> & <-).
    rewrite map_app. cbn [map fst].
    destruct (G _ c1 (length (map fst l1 ++ c1 :: map fst l2)) (Sh m n mg ch) H) as (E & c' & s' & Hx).
    eexists. rewrite <- E, <- (map_length fst l1). apply tstep_thr. exact Hx.
Qed.

Lemma linked_step tr' s tr m e s' : linked tr' s tr m -> etstep np part join body e s s' ->
  exists tr1 m1, linked (tr' ++ [e]) s' tr1 m1.
Proof.
  intros HL Hs. assert (Hrel := linked_related _ _ _ _ HL). destruct HL as (Ht & Hi & Hno & Hc).
  destruct (etstep_sim _ _ _ _ _ Hrel Hs) as (m' & Hi' & [(Ee & t & x & w & q & p & p' & C1 & Hq & -> & C2 & _ & _ & KB)|[(Hst & Hq & KC)|(t & x & w & p & Hst & -> & C1 & KB)]]).
  - (* part of an access *)
    exists tr, m'. split; [rewrite Ee; exact Ht|]. split; [exact Hi'|]. split.
    + eapply part_norace; [exact Hc|exact Hno| |exact Hq|eapply claims_apart; [eapply Hrace; apply Hrel|exact C1]].
      destruct (claim_step s m t x w p C1) as (s1 & H1). eapply Htrace. eapply texec_prog; [exact Ht|exact H1].
    + intros i' ei y wi E Ti. destruct (nth_app_inv _ _ _ _ E) as [E1|[-> ->]].
      * destruct (Hc _ _ _ _ E1 Ti) as (u & x0 & q0 & Hq0 & Ey & Ea & D). exists u, x0, q0. split; [exact Hq0|]. split; [exact Ey|]. split; [exact Ea|].
        destruct D as [(i & Ei & X)|(p0 & Hp0)]; [left; exists i; split; [exact Ei|apply xfer_stay, X]|right].
        destruct (Nat.eq_dec u t) as [->|N]; [exists p'; congruence|exists p0; apply KB; assumption].
      * apply acc_touches_inv in Ti. destruct Ti as [-> ->]. exists t, x, q. split; [exact Hq|]. split; [reflexivity|]. split; [reflexivity|].
        right. exists p'. exact C2.
  - (* no access *)
    exists (tr ++ [e]), m'. split; [eapply texec_prog; [exact Ht|exact Hst]|]. split; [exact Hi'|]. split.
    + intro Hr. destruct (race_app _ _ Hr) as [H|(i' & ei & y & wi & wj & _ & _ & T2 & _)]; [exact (Hno H)|exact (Hq _ _ T2)].
    + intros i' ei y wi E Ti. destruct (nth_app_inv _ _ _ _ E) as [E1|[-> ->]]; [|destruct (Hq _ _ Ti)].
      destruct (Hc _ _ _ _ E1 Ti) as (u & x0 & q0 & Hq0 & Ey & Ea & D). exists u, x0, q0. split; [exact Hq0|]. split; [exact Ey|]. split; [exact Ea|].
      destruct D as [(i & Ei & X)|(p0 & Hp0)]; [left; exists i|right; exists p0; apply KC, Hp0].
      split; [apply nth_app_old; exact Ei|]. apply xfer_both; [eapply nth_lt; exact Ei|apply alike_refl|exact X].
  - (* the end of an access *)
    exists (tr ++ [acc t x w]), m'. split; [eapply texec_prog; [exact Ht|exact Hst]|]. split; [exact Hi'|]. split.
    + intro Hr. destruct (race_app _ _ Hr) as [H|(i' & ei & y & wi & wj & _ & _ & T2 & _)]; [exact (Hno H)|exact (step_touches _ _ _ T2)].
    + intros i' ei y wi E Ti. destruct (nth_app_inv _ _ _ _ E) as [E1|[-> ->]]; [|destruct (step_touches _ _ _ Ti)].
      destruct (Hc _ _ _ _ E1 Ti) as (u & x0 & q0 & Hq0 & Ey & Ea & D). exists u, x0, q0. split; [exact Hq0|]. split; [exact Ey|]. split; [exact Ea|].
      destruct D as [(i & Ei & X)|(p0 & Hp0)].
      * left. exists i. split; [apply nth_app_old; exact Ei|]. apply xfer_both; [eapply nth_lt; exact Ei|apply alike_step|exact X].
      * destruct (Nat.eq_dec u t) as [->|N]; [left|right; exists p0; apply KB; assumption].
        rewrite C1 in Hp0. injection Hp0 as <- <- <-. exists (length tr). split; [apply nth_app_new|]. apply xfer_new.
        apply knows_app. eapply knows_self; [exact E1|]. rewrite Ea. apply acc_doneBy. reflexivity.
Qed.

Lemma linked_env tr' c ts F g mg ch F' mg' tr m : linked tr' (TSt c ts F g mg ch) tr m -> 0 <= mg' <= M ->
  (forall i q, Rg i -> F' i q = F i q) -> linked tr' (TSt c ts F' g mg' ch) tr m.
Proof.
  intros HL Hm Hf. assert (Hrel := linked_related _ _ _ _ HL). destruct HL as (Ht & [G1 G2] & Hno & Hc). cbn [tmem] in *.
  assert (Es : estep M Rg (erase (TSt c ts F g mg ch) m) (erase (TSt c ts F' g mg' ch) m)).
  { unfold erase. cbn [tmain tthr tgor tmax tchans]. apply (env_step M Rg (fst c) (map fst ts) (Sh m g mg ch) m mg' Hm). reflexivity. }
  split; [eapply texec_env; [exact Ht|exact Es]|]. split; [|split; [exact Hno|exact Hc]]. split.
  - intros [a p] Hg q u E. destruct (G1 _ Hg q u E) as [Hq B]. split; [exact Hq|]. cbn [fst] in *. destruct a as [[x [v|]]|]; auto.
    destruct B as [-> B]. split; [reflexivity|]. cbn [tmem]. rewrite Hf; [exact B|].
    eapply (in_bound body M Rg s0 Hbound _ m _ (Some (x, Some v), p)); [apply Hrel|exact Hg|reflexivity].
  - intros x q Hx Hq. cbn [tmem]. rewrite Hf by exact Hx. apply G2; assumption.
Qed.

Lemma linked_exec tr' s s' : etexec np part join body M Rg tr' s s' -> forall m, linked [] s [] m ->
  exists tr m', linked tr' s' tr m'.
Proof.
  induction 1 as [s|tr' e s s1 s2 H IH Hs|tr' s c ts F g mg ch F' mg' H IH Hm Hf]; intros m HL.
  - exists [], m. exact HL.
  - destruct (IH m HL) as (tr & m1 & HL1). eapply linked_step; eassumption.
  - destruct (IH m HL) as (tr & m1 & HL1). exists tr, m1. eapply linked_env; eassumption.
Qed.

Lemma linked_start c F mg m : s0 = start c m mg -> (forall x q, Rg x -> (q < np)%nat -> F x q = part (m x) q) ->
  linked [] (tstart c F mg) [] m.
Proof.
  intros E HF. destruct (related_start np part body M Rg s0 c F mg m E HF) as [_ Hi]. split; [rewrite E; constructor|]. split; [exact Hi|].
  split; [intros (i & j & ei & ej & y & wi & wj & _ & E1 & _); destruct i; discriminate|]. intros i' ei y w E1. destruct i'; discriminate.
Qed.

(** ** Reads that return any visible value *)

Variable F0 : Z -> nat -> V.
Notation pst := (@pst P T R V).

Definition afterP (e : event) (F : Z -> nat -> V) (o : option V) : Z -> nat -> V :=
  match e, o with EvWrite _ y, Some u => mset F (y / Z.of_nat np) (Z.to_nat (y mod Z.of_nat np)) u | _, _ => F end.

Lemma elocal_swap {A} mg t k e (c : cmd P T A) p F n ch c' p' F' n' ch' fs F1 :
  elocal np part join body mg t k e c p F n ch c' p' F' n' ch' fs ->
  (forall t' y, e = EvRead t' y -> flat np F1 y = flat np F y) ->
  elocal np part join body mg t k e c p F1 n ch c' p' (afterP e F1 (wrote e (flat np F'))) n' ch' fs.
Proof.
  intros H Hr. destruct H as [c p F n ch x kk q Hv Hq Hp|c p F n ch x kk f Hv Hall|c p F n ch x v kk q Hv Hq Hp|c p F n ch x v kk Hv Hall|c p F n ch m1 c' n' ch' fs Ha Hx].
  - cbn [afterP wrote]. specialize (Hr _ _ eq_refl). rewrite !flat_place in Hr by exact Hq. rewrite <- Hr. eapply el_read; eassumption.
  - eapply el_read_done; eassumption.
  - cbn [afterP wrote]. rewrite flat_place, place_div, place_mod by exact Hq.
    replace (mset F x q (part v q) x q) with (part v q) by (unfold mset; rewrite Z.eqb_refl, Nat.eqb_refl; reflexivity).
    eapply el_write; eassumption.
  - eapply el_write_done; eassumption.
  - replace (afterP (label t k c) F1 (wrote (label t k c) (flat np F))) with F1; [eapply el_other; eassumption|].
    unfold access in Ha. unfold label. destruct (view c); try reflexivity. discriminate.
Qed.

Lemma etstep_swap e m ts F F1 ng mg ch s' : etstep np part join body e (TSt m ts F ng mg ch) s' ->
  (forall t y, e = EvRead t y -> flat np F1 y = flat np F y) ->
  tmax s' = mg /\
  etstep np part join body e (TSt m ts F1 ng mg ch : tst)
    (TSt (tmain s') (tthr s') (afterP e F1 (wrote e (flat np (tmem s')))) (tgor s') mg (tchans s')).
Proof.
  intros H Hr. remember (TSt m ts F ng mg ch) as s eqn:Es. destruct H; injection Es; intros; subst; cbn [tmain tthr tmem tgor tmax tchans afterP wrote];
    (split; [reflexivity|]).
  - apply es_main. eapply elocal_swap; eassumption.
  - apply es_thr. eapply elocal_swap; eassumption.
  - eapply es_to_main; eassumption.
  - eapply es_from_main; eassumption.
  - eapply es_thr_thr1; eassumption.
  - eapply es_thr_thr2; eassumption.
  - eapply es_stale_main; eassumption.
  - eapply es_stale_thr; eassumption.
Qed.

(** An execution in which each part is read as it was last written, and that does the same. *)
Definition pmatches (mg0 : Z) (c0 : cmd P T R) (w : pst) : Prop :=
  exists s, etexec np part join body M Rg (map fst (phist w)) (tstart c0 F0 mg0) s /\
    tmain s = pmain w /\ tthr s = pthr w /\ tgor s = pgor w /\ tchans s = pchans w /\
    forall y, Rg (y / Z.of_nat np) -> flat np (tmem s) y = latest (flat np F0) (phist w) y.

Lemma flat_mset (F : Z -> nat -> V) y u z : (0 < np)%nat ->
  flat np (mset F (y / Z.of_nat np) (Z.to_nat (y mod Z.of_nat np)) u) z = if y =? z then u else flat np F z.
Proof.
  intro Hn. unfold flat, mset. destruct (Z.eqb_spec y z) as [->|N]; [rewrite Z.eqb_refl, Nat.eqb_refl; reflexivity|].
  destruct (Z.eqb_spec (z / Z.of_nat np) (y / Z.of_nat np)) as [E|]; [|reflexivity]. cbn [andb].
  destruct (Nat.eqb_spec (Z.to_nat (z mod Z.of_nat np)) (Z.to_nat (y mod Z.of_nat np))) as [E2|]; [|reflexivity]. exfalso. apply N.
  assert (A := Z.mod_pos_bound y (Z.of_nat np) ltac:(lia)). assert (B := Z.mod_pos_bound z (Z.of_nat np) ltac:(lia)).
  apply Z2Nat.inj in E2; [|lia|lia]. rewrite (Z.div_mod y (Z.of_nat np)), (Z.div_mod z (Z.of_nat np)) by lia. congruence.
Qed.

Lemma local_again {A} mg t k e (c : cmd P T A) p F n ch c' p' F' n' ch' fs F1 t' y :
  elocal np part join body mg t k e c p F n ch c' p' F' n' ch' fs -> e = EvRead t' y ->
  exists p1, elocal np part join body mg t k e c p F1 n ch c p1 F1 n ch [].
Proof.
  intros H E. destruct H; try discriminate.
  - eexists. eapply el_read; eassumption.
  - exfalso. unfold label in E. unfold access in H. destruct (view c); discriminate.
Qed.

Lemma read_again e m ts F F1 ng mg ch s' t y : etstep np part join body e (TSt m ts F ng mg ch : tst) s' -> e = EvRead t y ->
  exists s1, etstep np part join body e (TSt m ts F1 ng mg ch : tst) s1.
Proof.
  intros H E. remember (TSt m ts F ng mg ch) as s eqn:Es. destruct H; injection Es; intros; subst; try discriminate.
  - destruct (local_again _ _ _ _ _ _ _ _ _ _ _ _ _ _ _ F1 _ _ H eq_refl) as (p1 & H1). eexists. eapply es_main, H1.
  - destruct (local_again _ _ _ _ _ _ _ _ _ _ _ _ _ _ _ F1 _ _ H eq_refl) as (p1 & H1). eexists. eapply es_thr, H1.
Qed.

Hypothesis Hdec : forall x, Rg x \/ ~ Rg x.
Hypothesis Hnp : (0 < np)%nat.

Theorem pweak_strong mg0 c0 : 0 <= mg0 <= M ->
  (forall tr s, etexec np part join body M Rg tr (tstart c0 F0 mg0) s -> ~ dataRace tr) ->
  forall w, pwexec np part join body M Rg F0 c0 w -> pmatches mg0 c0 w.
Proof.
  intros Hmg Hnr w H. induction H as [|w w' H IH Hs].
  - exists (tstart c0 F0 mg0). split; [constructor|]. repeat split.
  - destruct IH as (s & Ht & E1 & E2 & E3 & E4 & E5). destruct Hs as [e m ts ng ch h F mg s' Hmg' Hvis Hst].
    cbn [pmain pthr pgor pchans phist] in *. destruct s as [m1 ts1 Fs ng1 mg1 ch1]. cbn [tmain tthr tmem tgor tchans] in *.
    subst m1 ts1 ng1 ch1.
    assert (Hw : exists F1, (forall x q, Rg x -> F1 x q = Fs x q) /\ forall t y, e = EvRead t y -> ~ Rg (y / Z.of_nat np) -> flat np F1 y = flat np F y).
    { destruct e as [|t y| | | |]; try (exists Fs; split; [auto|intros t' x' E; discriminate]).
      destruct (Hdec (y / Z.of_nat np)) as [Hx|Hx].
      - exists Fs. split; [auto|]. intros t' y' E. inversion E; subst. contradiction.
      - exists (mset Fs (y / Z.of_nat np) (Z.to_nat (y mod Z.of_nat np)) (flat np F y)). split.
        + intros x q Rx. unfold mset. destruct (Z.eqb_spec x (y / Z.of_nat np)); [subst; contradiction|reflexivity].
        + intros t' y' E _. inversion E; subst. rewrite flat_mset by exact Hnp. rewrite Z.eqb_refl. reflexivity. }
    destruct Hw as (F1 & W1 & W2).
    assert (Henv : etexec np part join body M Rg (map fst h) (tstart c0 F0 mg0) (TSt m ts F1 ng mg ch)).
    { eapply etexec_env; [exact Ht|exact Hmg'|exact W1]. }
    assert (F1s : forall y, Rg (y / Z.of_nat np) -> flat np F1 y = flat np Fs y) by (intros y Hy; apply W1, Hy).
    assert (Hsame : forall t y, e = EvRead t y -> flat np F1 y = flat np F y).
    { intros t y E. destruct (Hdec (y / Z.of_nat np)) as [Hx|Hx]; [|eapply W2; eauto].
      rewrite (F1s y Hx), (E5 y Hx). symmetry. eapply visible_last; [exact E| |exact (Hvis t y E Hx)].
      destruct (read_again e m ts F F1 ng mg ch s' t y Hst E) as (s1 & Hs1). eapply Hnr. eapply etexec_prog; [exact Henv|exact Hs1]. }
    destruct (etstep_swap e m ts F F1 ng mg ch s' Hst Hsame) as [_ Hst'].
    eexists. cbn [pmain pthr pgor pchans phist]. rewrite map_app. split; [eapply etexec_prog; [exact Henv|exact Hst']|].
    cbn [tmain tthr tmem tgor tchans]. do 4 (split; [reflexivity|]).
    intros y Hy. rewrite last_app. destruct e as [| |t z| | |]; cbn [wrote afterP]; rewrite ?(F1s y Hy), ?(E5 y Hy); try reflexivity.
    rewrite flat_mset by exact Hnp. destruct (Z.eqb z y); [reflexivity|]. rewrite (F1s y Hy). apply E5. exact Hy.
Qed.

(** Progress of this machine is that of the one with the last values. *)
Lemma pweak_step (w : pst) s s' : tmain s = pmain w -> tthr s = pthr w -> tgor s = pgor w -> tchans s = pchans w -> 0 <= tmax s <= M ->
  (forall y, Rg (y / Z.of_nat np) -> flat np (tmem s) y = latest (flat np F0) (phist w) y) ->
  Torn.tstep np part join body s s' -> exists w', pwstep np part join body M Rg F0 w w'.
Proof.
  intros E1 E2 E3 E4 Hm E5 Hs. destruct (tstep_etstep _ _ Hs) as (e & He). destruct s as [m ts F ng mg ch], w as [m1 ts1 ng1 ch1 h].
  cbn [tmain tthr tgor tchans tmax tmem pmain pthr pgor pchans phist] in *. subst m1 ts1 ng1 ch1.
  eexists. apply (pwstep_in np part join body M Rg F0 e m ts ng ch h F mg s' Hm); [|exact He].
  intros t y _ Hy. rewrite (E5 y Hy). apply latest_visible.
Qed.

(** Conversely this machine can do whatever the one of [Torn.v] can. *)
Lemma elocal_frame {A} mg t k e (c : cmd P T A) p F n ch c' p' F' n' ch' fs y :
  elocal np part join body mg t k e c p F n ch c' p' F' n' ch' fs -> (forall t', e <> EvWrite t' y) -> flat np F' y = flat np F y.
Proof.
  intros H Hy. destruct H; try reflexivity. unfold flat, mset.
  destruct (Z.eqb_spec (y / Z.of_nat np) i) as [E|]; [|reflexivity]. cbn [andb].
  destruct (Nat.eqb_spec (Z.to_nat (y mod Z.of_nat np)) q) as [E2|]; [|reflexivity]. exfalso. apply (Hy t). f_equal. unfold place.
  assert (B := Z.mod_pos_bound y (Z.of_nat np) ltac:(lia)). subst i q. rewrite Z2Nat.id by lia. rewrite (Z.div_mod y (Z.of_nat np)) at 3 by lia. lia.
Qed.

Lemma etstep_frame e (s s' : tst) y : etstep np part join body e s s' -> (forall t', e <> EvWrite t' y) -> flat np (tmem s') y = flat np (tmem s) y.
Proof. intros H Hy. destruct H; try reflexivity; cbn [tmem]; eapply elocal_frame; eassumption. Qed.

Lemma etstep_max e (s s' : tst) : etstep np part join body e s s' -> tmax s' = tmax s.
Proof. destruct 1; reflexivity. Qed.

Theorem pstrong_weak mg0 (c0 : cmd P T R) : 0 <= mg0 <= M -> forall tr (s : tst), etexec np part join body M Rg tr (tstart c0 F0 mg0) s ->
  0 <= tmax s <= M /\ exists w, pwexec np part join body M Rg F0 c0 w /\ map fst (phist w) = tr /\ pmain w = tmain s /\ pthr w = tthr s /\
    pgor w = tgor s /\ pchans w = tchans s /\
    forall y, Rg (y / Z.of_nat np) -> latest (flat np F0) (phist w) y = flat np (tmem s) y.
Proof.
  intros Hmg tr s H. remember (tstart c0 F0 mg0) as st0 eqn:E0.
  induction H as [s|tr e s s1 s2 H IH Hs|tr s m ts F c mg ch F' mg' H IH Hm Hf]; subst s.
  - split; [exact Hmg|]. exists (Pst (c0, idle) [] 0 0 []). split; [constructor|]. repeat split.
  - destruct (IH eq_refl) as (Hm & w & G1 & G2 & G3 & G4 & G5 & G6 & G7). assert (Em := etstep_max _ _ _ Hs). assert (Fr := fun y => etstep_frame e s1 s2 y Hs).
    split; [rewrite Em; exact Hm|]. destruct s1 as [m ts F ng mg ch], w as [wm wt wn wc h].
    cbn [tmain tthr tmem tgor tmax tchans pmain pthr pgor pchans phist] in *. subst wm wt wn wc.
    eexists. split.
    { eapply pwexec_step; [exact G1|]. apply (pwstep_in np part join body M Rg F0 e m ts ng ch h F mg s2 Hm); [|exact Hs].
      intros t y _ Hy. rewrite <- (G7 y Hy). apply latest_visible. }
    cbn [pmain pthr pgor pchans phist]. rewrite map_app, G2. do 5 (split; [reflexivity|]).
    intros y Hy. rewrite last_app. unfold wrote.
    destruct e as [| |t z| | |]; try (rewrite (G7 y Hy), Fr; [reflexivity|discriminate]).
    destruct (Z.eqb_spec z y) as [->|Ne]; [reflexivity|]. rewrite (G7 y Hy), Fr; [reflexivity|]. intros t' E; inversion E; congruence.
  - destruct (IH eq_refl) as (Hm' & w & G1 & G2 & G3 & G4 & G5 & G6 & G7). cbn [tmain tthr tmem tgor tmax tchans] in *.
    split; [exact Hm|]. exists w. repeat (split; [assumption|]). intros y Hy. rewrite (G7 y Hy). unfold flat. symmetry. apply Hf, Hy.
Qed.

End Parts.
