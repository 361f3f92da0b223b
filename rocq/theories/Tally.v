(** * All the goroutines of a call

    How many goroutines take part in counting, over a whole execution, and how often they count: the
    cells of those that have signed off are remembered. *)

From Coq Require Import List ZArith Lia Bool Permutation.
From Verif Require Import Lang Trace SeqLogic ConcLogic Soundness Adequacy.
Import ListNotations.
Open Scope Z_scope.
Local Arguments Z.mul : simpl never.
Local Arguments Z.add : simpl never.
Local Arguments Z.sub : simpl never.

(** ** Specification *)

(** Atomic operations of a trace: updates of the goroutine counter (sortyU8.go:267, 321, 361 and the like). *)
Definition atom (e : event) : Z := match e with EvAtomic _ => 1 | _ => 0 end.
Definition atoms (tr : list event) : Z := sumf atom tr.

(** ** Proofs *)

Lemma atom_nonneg e : 0 <= atom e.
Proof. destruct e; cbn; lia. Qed.

Lemma atoms_app a b : atoms (a ++ b) = atoms a + atoms b.
Proof. apply sumf_app. Qed.

Section Tally.
Context {Gr : grain}.
Context {T : Type}.
Variable R0 : cells.

(** [X]: cells of the goroutines [Rt] that have signed off; [b]: the counter exists. *)
Record tally (Lg : list (gst T)) (b : bool) (X : list Z) (Rt : list nat) (tr : list event) : Prop := {
  ta_nd : NoDup X;
  ta_len : length X = (length Rt * S gr)%nat;
  ta_out : forall x, In x X -> R0 x /\ forall g, In g Lg -> ~ claim g x;
  ta_sum : if b then atoms tr + 1 = 2 * Z.of_nat (length Rt) + sumf cnt Lg else atoms tr = 0 /\ Rt = [] /\ sumf cnt Lg = 0;
  ta_who : forall t, In (EvAtomic t) tr -> In t Rt \/ exists g a, nth_error Lg t = Some g /\ md g = MAct a
}.

Lemma cnt_pos (g : gst T) : 0 <= cnt g.
Proof. unfold cnt. destruct (md g); try lia. destruct (a_credit a); lia. Qed.

Lemma sumf_mid {X} (f : X -> Z) A x B : sumf f (A ++ x :: B) = f x + sumf f A + sumf f B.
Proof. rewrite sumf_app, sumf_cons. lia. Qed.

Lemma nth_mid {X} (A : list X) x y B C t z : nth_error (A ++ x :: B) t = Some z -> t <> length A ->
  nth_error (A ++ y :: B ++ C) t = Some z.
Proof.
  intros H Ht. destruct (Nat.lt_ge_cases t (length A)) as [L|L].
  - rewrite nth_error_app1 in H |- * by exact L. exact H.
  - rewrite nth_error_app2 in H |- * by exact L. destruct (t - length A)%nat as [|n] eqn:E; [lia|]. cbn in H |- *.
    rewrite nth_error_app1; [exact H|]. apply nth_error_Some. congruence.
Qed.

Lemma nth_here {X} (A : list X) x B : nth_error (A ++ x :: B) (length A) = Some x.
Proof. rewrite nth_error_app2, Nat.sub_diag by lia. reflexivity. Qed.

Lemma tally_step A g B g' new es b X Rt tr : tally (A ++ g :: B) b X Rt tr ->
  (forall i, claim g' i -> claim g i) -> Forall (fun h => forall i, claim h i -> claim g i) new ->
  cnt g' + sumf cnt new = cnt g + atoms es ->
  ((exists a, md g = MAct a) -> exists a, md g' = MAct a) ->
  (forall t, In (EvAtomic t) es -> t = length A /\ exists a, md g' = MAct a) ->
  (atoms es = 0 \/ 1 <= cnt g) ->
  tally (A ++ g' :: B ++ new) b X Rt (tr ++ es).
Proof.
  intros [H1 H2 H3 H4 H5] Hc Hn Hs Hm He Ha. constructor; [exact H1|exact H2| | |].
  - intros x Hx. destruct (H3 x Hx) as [K1 K2]. split; [exact K1|]. intros h Hh.
    assert (Kg : ~ claim g x) by (apply K2, in_elt).
    apply in_app_iff in Hh. destruct Hh as [Hh|[<-|Hh]].
    + apply K2. apply in_app_iff. left. exact Hh.
    + intro F. exact (Kg (Hc x F)).
    + apply in_app_iff in Hh. destruct Hh as [Hh|Hh].
      * apply K2. apply in_app_iff. right. right. exact Hh.
      * rewrite Forall_forall in Hn. intro F. exact (Kg (Hn h Hh x F)).
  - rewrite atoms_app, sumf_mid, sumf_app. rewrite sumf_mid in H4.
    destruct b; [lia|]. destruct H4 as (E1 & E2 & E3). split; [|split; [exact E2|]].
    + assert (P1 := sumf_nonneg cnt A cnt_pos). assert (P2 := sumf_nonneg cnt B cnt_pos). lia.
    + assert (P1 := sumf_nonneg cnt A cnt_pos). assert (P2 := sumf_nonneg cnt B cnt_pos). assert (P3 := cnt_pos g). lia.
  - intros t Ht. apply in_app_iff in Ht. destruct Ht as [Ht|Ht].
    + destruct (H5 t Ht) as [K|(h & a & K1 & K2)]; [left; exact K|right].
      destruct (Nat.eq_dec t (length A)) as [->|N].
      * rewrite nth_here in K1. injection K1 as <-. destruct (Hm (ex_intro _ a K2)) as [a' Ea]. exists g', a'. split; [apply nth_here|exact Ea].
      * exists h, a. split; [eapply nth_mid; eassumption|exact K2].
    + right. destruct (He t Ht) as [-> [a Ea]]. exists g', a. split; [apply nth_here|exact Ea].
Qed.

Lemma NoDup_both {X} (l l' : list X) : NoDup l -> NoDup l' -> (forall x, In x l -> ~ In x l') -> NoDup (l ++ l').
Proof.
  intros H H' D. induction H as [|x l Hx H IH]; [exact H'|]. cbn. constructor.
  - rewrite in_app_iff. intros [F|F]; [contradiction|]. exact (D x (or_introl eq_refl) F).
  - apply IH. intros y Hy. apply D. right. exact Hy.
Qed.

Lemma tally_dec A g B g' a b X Rt tr : tally (A ++ g :: B) b X Rt tr -> md g = MAct a -> a_credit a = false ->
  many (dom g) -> (forall i, dom g i -> rd g i) -> (forall i, rd g i -> R0 i) ->
  (forall i, ~ claim g' i) -> cnt g' = 0 ->
  (forall h, In h (A ++ B) -> disj (rd g) (claim h)) ->
  exists X', tally (A ++ g' :: B) b X' (length A :: Rt) (tr ++ [EvAtomic (length A)]).
Proof.
  intros [H1 H2 H3 H4 H5] Em Ec (l & Hl & El & Dl) Hd Hr Hg Hc Hv.
  assert (Hcl : forall x, In x l -> claim g x) by (intros x Hx; left; auto).
  assert (C1 : cnt g = 1) by (unfold cnt; rewrite Em, Ec; reflexivity).
  exists (X ++ l). constructor.
  - apply NoDup_both; [exact H1|exact Hl|]. intros x Hx Hx'. destruct (H3 x Hx) as [_ K]. apply (K g (in_elt _ _ _)). auto.
  - rewrite app_length, H2, El. cbn. lia.
  - intros x Hx. apply in_app_iff in Hx. destruct Hx as [Hx|Hx].
    + destruct (H3 x Hx) as [K1 K2]. split; [exact K1|]. intros h Hh. apply in_app_iff in Hh. destruct Hh as [Hh|[<-|Hh]].
      * apply K2. apply in_app_iff. left. exact Hh.
      * apply Hg.
      * apply K2. apply in_app_iff. right. right. exact Hh.
    + split; [auto|]. intros h Hh. apply in_app_iff in Hh. destruct Hh as [Hh|[<-|Hh]]; [|apply Hg|].
      * intro F. apply (Hv h) with (i := x); [apply in_app_iff; left; exact Hh|auto|exact F].
      * intro F. apply (Hv h) with (i := x); [apply in_app_iff; right; exact Hh|auto|exact F].
  - rewrite atoms_app. rewrite sumf_mid in *. cbn [length]. change (atoms [EvAtomic (length A)]) with 1.
    assert (P1 := sumf_nonneg cnt A cnt_pos). assert (P2 := sumf_nonneg cnt B cnt_pos). destruct b; lia.
  - intros t Ht. apply in_app_iff in Ht. destruct Ht as [Ht|[Ht|[]]].
    + destruct (H5 t Ht) as [K|(h & a' & K1 & K2)]; [left; right; exact K|].
      destruct (Nat.eq_dec t (length A)) as [->|N]; [left; left; reflexivity|right].
      exists h, a'. split; [|exact K2]. rewrite <- (app_nil_r B). eapply nth_mid; eassumption.
    + injection Ht as <-. left. left. reflexivity.
Qed.

Lemma pool_claim (g : gst T) i : pool_ok g -> claim g i -> rd g i.
Proof.
  unfold pool_ok, claim, joined. intros Hp [H|H]; [exact H|]. destruct (md g); try contradiction. destruct Hp as [_ E]. rewrite E in H. contradiction.
Qed.
End Tally.

Section Run.
Context {Gr : grain}.
Context {P T R : Type}.
Variable body : P -> cmd P T unit.
Variables (Dm D : nat) (M : Z) (R0 : cells) (Qm : R -> nat -> gst T -> Prop).
Hypothesis R0fin : exists l, (forall i, R0 i -> In i l) /\ Z.of_nat (length l) < two64.

Notation WP := (wp body (wpT body Dm) D Qm).
Notation WPT := (wpT body Dm).
Notation GGI := (@GG Gr T False M R0).
Notation pent := (@pent P T).

Definition TINV (tr : list event) (s : st P T R) : Prop :=
  exists gm nm (pool : list pent) deps b X Rt,
    WP nm (main s) gm /\ Forall (fun e => WPT (en e) (ec e) (eg e)) pool /\
    thr s = map ec pool /\ GGI gm (map eg pool) deps (sh s) /\
    tally R0 (gm :: map eg pool) b X Rt tr /\ (md gm = MInit -> b = false).

Ltac lbl Hv := unfold Trace.label; rewrite Hv.

Lemma t_main m s m' s' fs ts tr :
  exec_local body m s = Some (m', s', fs) ->
  TINV tr (St m ts s) -> TINV (tr ++ [Trace.label 0 (length ts) m]) (St m' (ts ++ fs) s').
Proof.
  intros He (gm & nm & pool & deps & b & X & Rt & HW & HP & Ht & HG & HT & Hb). simpl in HW, Ht, HG. subst ts.
  pose proof (gg_wfm _ _ _ _ _ _ HG) as (Hdr & HrR & Hag & Hsn & Hwm).
  pose proof (main_mode _ _ _ _ HG) as Hmm.
  unfold exec_local in He.
  assert (Keep : forall gm' es, atoms es = 0 -> (forall t, ~ In (EvAtomic t) es) -> (forall i, claim gm' i -> claim gm i) -> cnt gm' = cnt gm ->
    ((exists a, md gm = MAct a) -> exists a, md gm' = MAct a) -> tally R0 (gm' :: map eg pool) b X Rt (tr ++ es)).
  { intros gm' es E1 E2 E3 E4 E5.
    assert (K := tally_step R0 [] gm (map eg pool) gm' [] es b X Rt tr HT E3 (Forall_nil _)). rewrite app_nil_r in K. apply K; [|exact E5| |left; exact E1].
    - change (sumf cnt []) with 0. lia.
    - intros t F. destruct (E2 t F). }
  assert (Id : forall es, atoms es = 0 -> (forall t, ~ In (EvAtomic t) es) -> tally R0 (gm :: map eg pool) b X Rt (tr ++ es)) by (intros; apply Keep; auto).
  assert (No : forall e, atom e = 0 -> forall t, ~ In (EvAtomic t) [e]) by (intros e E t [F|[]]; subst; discriminate).
  destruct HW as [a Hd Hv Hq|n' c' Hd Hv En HW|n' i k0 Hd Hv En Hl Hi HW|n' i x k0 Hd Hv En Hl Hi Hz HW
    |n' p k0 Hd Hv En Hl HW|n' k0 Hd Hv En Hl HW|n' k0 a Hd Hv En Em Ec Ej HW|n' k0 Pr Hd Hv En Em Hs Hne HW
    |n' k0 a Hd Hv En Em Ec Et Ej H2 HW|n' k0 a Hd Hv En Em Ec Ej HPr HW
    |n' p k0 a d1 P1 P2 n1 n2 Hd Hv En Em Ec Ej Hd1 Hn1 Hn2 HPr Hnn HWc HW
    |n' p k0 a dj d2 r2 post n1 n2 Hd Hv En Em Ea Ec Et Ej Hdj Hd2 Hr2 Hne Hdec Hnn HWc HW
    |n' v k0 j Hd Hv En Em HPr HW|n' v k0 Hd Hv En Em HW
    |n' k0 a j Hd Hv En Em Ej HW|n' k0 Pf Hd Hv En Em HW];
    rewrite Hv in He; try discriminate He; inversion He; subst; clear He; rewrite ?app_nil_r; lbl Hv.
  - exists gm, n', pool, deps, b, X, Rt. split; [exact HW|]. split; [exact HP|]. split; [reflexivity|]. split; [exact HG|]. split; [apply Id; [reflexivity|apply No; reflexivity]|exact Hb].
  - rewrite <- (Hag i Hi) in HW. exists gm, n', pool, deps, b, X, Rt. split; [exact HW|]. split; [exact HP|]. split; [reflexivity|]. split; [exact HG|]. split; [apply Id; [reflexivity|apply No; reflexivity]|exact Hb].
  - exists (setval gm (upd (val gm) i x)), n', pool, deps, b, X, Rt.
    split; [exact HW|]. split; [exact HP|]. split; [reflexivity|]. split; [|split; [apply Keep; [reflexivity|apply No; reflexivity|auto|reflexivity|auto]|exact Hb]].
    apply (GG_local_main False M R0 gm); simpl; auto.
    + intros j Hj. unfold upd; simpl. destruct (j =? i); auto.
    + intros j Hj. unfold upd. destruct (Z.eqb_spec j i); [subst; contradiction|reflexivity].
  - exists gm, n', pool, deps, b, X, Rt. split; [exact HW|]. split; [exact HP|]. split; [reflexivity|]. split; [exact HG|]. split; [apply Id; [reflexivity|apply No; reflexivity]|exact Hb].
  - exists (setseen gm (maxg s')), n', pool, deps, b, X, Rt.
    pose proof (gg_maxg _ _ _ _ _ _ HG) as Hmg.
    split; [apply HW; lia|]. split; [exact HP|]. split; [reflexivity|]. split; [apply GG_seen_main; auto; lia|].
    split; [apply Keep; [reflexivity|apply No; reflexivity|auto|reflexivity|auto]|exact Hb].
  - exists (setmd gm (MAct (settok a (ngor s' <? seen gm)))), n', pool, deps, b, X, Rt.
    split; [apply HW|]. split; [exact HP|]. split; [reflexivity|]. split; [apply GG_loadgor_main; auto|].
    split; [|discriminate]. apply Keep; [reflexivity|apply No; reflexivity| | |intros _; eexists; reflexivity].
    + intros i. unfold claim, joined. cbn. rewrite Em. auto.
    + unfold cnt. cbn. rewrite Em. reflexivity.
  - exists (setmd gm (MAct (Act (Some Pr) Pr false true None))), n', pool, deps, true, [], [].
    split; [apply HW|]. split; [exact HP|]. split; [reflexivity|]. split; [apply GG_makesv; auto|]. split; [|discriminate].
    rewrite (Hb Em) in HT. destruct HT as [H1 H2 H3 H4 H5]. destruct H4 as (E1 & E2 & E3). constructor; [constructor|reflexivity|intros x []| |].
    + rewrite atoms_app, E1. rewrite sumf_cons in *. cbn [length]. change (atoms [EvStep 0]) with 0.
      change (cnt (setmd gm (MAct (Act (Some Pr) Pr false true None)))) with 1.
      assert (K : cnt gm = 0) by (unfold cnt; rewrite Em; reflexivity). lia.
    + intros t Hin. apply in_app_iff in Hin. destruct Hin as [Hin|[Hin|[]]]; [|discriminate].
      destruct (H5 t Hin) as [F|(g & a & F1 & F2)]; [subst; destruct F|].
      destruct t as [|t]; [injection F1 as <-; congruence|].
      right. exists g, a. split; [exact F1|exact F2].
  - exists (setmd gm (MAct (setcredit a))), n', pool, deps, b, X, Rt.
    split; [apply HW|]. split; [exact HP|]. split; [reflexivity|]. split; [apply GG_inc_main; auto|]. split; [|discriminate].
    assert (K := tally_step R0 [] gm (map eg pool) (setmd gm (MAct (setcredit a))) [] [EvAtomic 0] b X Rt tr HT). rewrite app_nil_r in K.
    apply K; [| constructor | | intros _; eexists; reflexivity | | ].
    + intros i. unfold claim, joined. cbn. rewrite Em. auto.
    + unfold cnt. cbn. rewrite Em, Ec. reflexivity.
    + intros t [F|[]]. injection F as <-. split; [reflexivity|]. eexists. reflexivity.
    + right. unfold cnt. rewrite Em, Ec. lia.
  - destruct (GG_dec_main False M R0 R0fin gm a _ _ _ HG Em Ec Ej HPr) as (Hz & deps' & HG').
    destruct (tally_dec R0 [] gm (map eg pool) (noown gm (signed_off a ((ngor s + (two64 - 1)) mod two64))) a b X Rt tr HT Em Ec) as [X' HT'].
    + exact (many_dom R0 gm a Hwm Em Ej).
    + exact Hdr.
    + exact HrR.
    + intros i. unfold claim, joined, signed_off. cbn. destruct (a_main a), (_ =? 0); cbn; tauto.
    + unfold cnt, signed_off. cbn. destruct (a_main a), (_ =? 0); reflexivity.
    + intros h Hh i Hi Hc. pose proof (pool_mode _ _ _ _ h HG Hh) as Hok. apply (pool_claim h i Hok) in Hc.
      pose proof (gg_vsm _ _ _ _ _ _ HG) as Hvs. rewrite Forall_forall in Hvs. specialize (Hvs h Hh). unfold vs_main in Hvs.
      assert (Ejm : joined gm = None) by (unfold joined; rewrite Em; exact Ej).
      destruct (md h); try (apply (Hvs i); [left; exact Hi|exact Hc]). destruct Hvs as (F & _). congruence.
    + exists (noown gm (signed_off a ((ngor s + (two64 - 1)) mod two64))), n', pool, deps', b, X', (0%nat :: Rt).
      split; [apply HW; exact Hz|]. split; [exact HP|]. split; [reflexivity|]. split; [exact HG'|]. split; [exact HT'|].
      cbn. unfold signed_off. destruct (a_main a), (_ =? 0); discriminate.
  - exists (Gst (minus (dom gm) d1) (minus (rd gm) d1) (val gm) (MAct (forked a P2)) (seen gm)), n2,
      (pool ++ [Pent (body p) (Gst d1 d1 (val gm) (MAct (Act None P1 false false None)) 0) n1]), deps, b, X, Rt.
    split; [exact HW|]. split; [apply Forall_app; split; auto|].
    split; [simpl; rewrite map_app; reflexivity|]. split; [|split; [|discriminate]].
    + rewrite map_app. simpl. eapply GG_perm; [apply Permutation_cons_append|].
      eapply GG_fork_main; eauto.
    + rewrite map_app. apply (tally_step R0 [] gm (map eg pool) _ [_] _ b X Rt tr HT).
      * intros i. unfold claim, joined, minus. cbn. rewrite Em, Ej. tauto.
      * constructor; [|constructor]. intros i. unfold claim, joined. cbn. intros [F|[]]. left. auto.
      * unfold cnt. cbn. rewrite Em, Ec. reflexivity.
      * intros _; eexists; reflexivity.
      * intros t [F|[]]. discriminate.
      * left. reflexivity.
  - exists (Gst (minus (dom gm) dj) (minus (rd gm) d2) (val gm)
                     (MAct (setjoin a (Some (Join dj post)))) (seen gm)), n2,
      (pool ++ [Pent (body p) (Gst d2 r2 (val gm) (MPart (Join dj post)) 0) n1]), deps, b, X, Rt.
    split; [exact HW|]. split; [apply Forall_app; split; auto|].
    split; [simpl; rewrite map_app; reflexivity|]. split; [|split; [|discriminate]].
    + rewrite map_app. simpl. eapply GG_perm; [apply Permutation_cons_append|].
      eapply GG_fork_part; eauto.
    + rewrite map_app. apply (tally_step R0 [] gm (map eg pool) _ [_] _ b X Rt tr HT).
      * intros i. unfold claim, joined, minus. cbn. intros [[F _]|F]; left; auto.
      * constructor; [|constructor]. intros i. unfold claim, joined. cbn. intros [F|[]]. left. auto.
      * unfold cnt. cbn. rewrite Em, Ec. reflexivity.
      * intros _; eexists; reflexivity.
      * intros t [F|[]]. discriminate.
      * left. reflexivity.
Qed.

Lemma t_thr m l1 c l2 s c' s' fs tr :
  exec_local body c s = Some (c', s', fs) ->
  TINV tr (St m (l1 ++ c :: l2) s) ->
  TINV (tr ++ [Trace.label (S (length l1)) (length (l1 ++ c :: l2)) c]) (St m (l1 ++ c' :: l2 ++ fs) s').
Proof.
  intros He (gm & nm & pool & deps & b & X & Rt & HW & HP & Ht & HG & HT & Hb). simpl in HW, Ht, HG.
  destruct (pool_split _ _ _ _ Ht) as (p1 & e & p2 & -> & -> & -> & ->). clear Ht.
  apply Forall_mid in HP. destruct HP as [[HWe] HP].
  rewrite map_app in HG, HT; simpl in HG, HT. apply GG_mid in HG. rewrite <- map_app in HG.
  set (rest := p1 ++ p2) in *. set (g := eg e) in *.
  pose proof (gg_wf _ _ _ _ _ _ HG) as Hwf. inversion Hwf as [|? ? Hwg _]; subst.
  destruct Hwg as (Hdr & HrR & Hag & Hsn & Hwm).
  pose proof (pool_mode _ _ _ _ g HG (or_introl eq_refl)) as Hok. clear Hwf.
  rewrite map_length. set (n0 := length (map ec p1 ++ ec e :: map ec p2)). clearbody n0.
  change (gm :: map eg p1 ++ g :: map eg p2) with ((gm :: map eg p1) ++ g :: map eg p2) in HT.
  assert (EA : length (gm :: map eg p1) = S (length p1)) by (cbn; rewrite map_length; reflexivity).
  assert (Fin0 : forall cc gg nn dd ss X' Rt' es, WPT nn cc gg -> GGI gm (gg :: map eg rest) dd ss ->
            tally R0 ((gm :: map eg p1) ++ gg :: map eg p2) b X' Rt' es ->
            TINV es (St m (map ec p1 ++ cc :: map ec p2 ++ []) ss)).
  { intros cc gg nn dd ss X' Rt' es H1 H2 H3. exists gm, nm, (p1 ++ Pent cc gg nn :: p2), dd, b, X', Rt'. simpl.
    split; [exact HW|]. split; [apply Forall_mid; split; auto|].
    split; [rewrite map_app, app_nil_r; reflexivity|]. split; [|split; [|exact Hb]].
    - rewrite map_app. simpl. apply GG_mid. rewrite <- map_app. exact H2.
    - rewrite map_app. exact H3. }
  assert (Keep : forall g' es, atoms es = 0 -> (forall t, ~ In (EvAtomic t) es) -> (forall i, claim g' i -> claim g i) -> cnt g' = cnt g ->
    ((exists a, md g = MAct a) -> exists a, md g' = MAct a) -> tally R0 ((gm :: map eg p1) ++ g' :: map eg p2) b X Rt (tr ++ es)).
  { intros g' es E1 E2 E3 E4 E5.
    assert (K := tally_step R0 _ g (map eg p2) g' [] es b X Rt tr HT E3 (Forall_nil _)). rewrite app_nil_r in K. apply K; [|exact E5| |left; exact E1].
    - change (sumf cnt []) with 0. lia.
    - intros t F. destruct (E2 t F). }
  assert (Id : forall es, atoms es = 0 -> (forall t, ~ In (EvAtomic t) es) -> tally R0 ((gm :: map eg p1) ++ g :: map eg p2) b X Rt (tr ++ es)) by (intros; apply Keep; auto).
  assert (No : forall e, atom e = 0 -> forall t, ~ In (EvAtomic t) [e]) by (intros e0 E t [F|[]]; subst; discriminate).
  clearbody g. unfold exec_local in He.
  destruct HWe as [a Hd Hv Hq|n' c0 Hd Hv En HWe|n' i k0 Hd Hv En Hl Hi HWe|n' i x k0 Hd Hv En Hl Hi Hz HWe
    |n' p k0 Hd Hv En Hl HWe|n' k0 Hd Hv En Hl HWe|n' k0 a Hd Hv En Em Ec Ej HWe|n' k0 Pr Hd Hv En Em Hs Hne HWe
    |n' k0 a Hd Hv En Em Ec Et Ej H2 HWe|n' k0 a Hd Hv En Em Ec Ej HPr HWe
    |n' p k0 a d1 P1 P2 n1 n2 Hd Hv En Em Ec Ej Hd1 Hn1 Hn2 HPr Hnn HWc HWe
    |n' p k0 a dj d2 r2 post n1 n2 Hd Hv En Em Ea Ec Et Ej Hdj Hd2 Hr2 Hne Hdec Hnn HWc HWe
    |n' v k0 j Hd Hv En Em HPr HWe|n' v k0 Hd Hv En Em HWe
    |n' k0 a j Hd Hv En Em Ej HWe|n' k0 Pf Hd Hv En Em HWe];
    rewrite Hv in He; try discriminate He; inversion He; subst; clear He; lbl Hv.
  - eapply Fin0; [constructor; exact HWe|exact HG|apply Id; [reflexivity|apply No; reflexivity]].
  - rewrite <- (Hag i Hi) in HWe. eapply Fin0; [constructor; exact HWe|exact HG|apply Id; [reflexivity|apply No; reflexivity]].
  - eapply Fin0; [constructor; exact HWe| |apply Keep; [reflexivity|apply No; reflexivity|auto|reflexivity|auto]].
    eapply (GG_local_pool False M R0 gm g); [exact HG|simpl; auto..].
    + intros j Hj. unfold upd; simpl. destruct (j =? i); auto.
    + intros j Hj. unfold upd. destruct (Z.eqb_spec j i); [subst; contradiction|reflexivity].
    + intro Hx. unfold live in Hl. rewrite Hx in Hl. contradiction.
  - eapply Fin0; [constructor; exact HWe|exact HG|apply Id; [reflexivity|apply No; reflexivity]].
  - pose proof (gg_maxg _ _ _ _ _ _ HG) as Hmg.
    eapply Fin0; [constructor; apply HWe; lia| |apply Keep; [reflexivity|apply No; reflexivity|auto|reflexivity|auto]].
    eapply GG_seen_pool; [exact HG|lia].
  - eapply Fin0; [constructor; apply HWe| |apply Keep; [reflexivity|apply No; reflexivity| | |intros _; eexists; reflexivity]].
    + eapply GG_loadgor_pool; eauto.
    + intros i. unfold claim, joined. cbn. rewrite Em. auto.
    + unfold cnt. cbn. rewrite Em. reflexivity.
  - unfold pool_ok in Hok. rewrite Em in Hok. contradiction.
  - eapply Fin0; [constructor; apply HWe| |].
    + eapply GG_inc_pool; eauto.
    + assert (K := tally_step R0 _ g (map eg p2) (setmd g (MAct (setcredit a))) [] [EvAtomic (S (length p1))] b X Rt tr HT). rewrite app_nil_r in K.
      apply K; [| constructor | | intros _; eexists; reflexivity | | ].
      * intros i. unfold claim, joined. cbn. rewrite Em. auto.
      * unfold cnt. cbn. rewrite Em, Ec. reflexivity.
      * intros t [F|[]]. injection F as <-. split; [symmetry; exact EA|]. eexists. reflexivity.
      * right. unfold cnt. rewrite Em, Ec. lia.
  - destruct (GG_dec_pool False M R0 R0fin gm g a _ _ _ HG Em Ec Ej HPr) as (Hz & deps' & HG').
    destruct (tally_dec R0 _ g (map eg p2) (noown g (signed_off a ((ngor s + (two64 - 1)) mod two64))) a b X Rt tr HT Em Ec) as [X' HT'].
    + exact (many_dom R0 g a Hwm Em Ej).
    + exact Hdr.
    + exact HrR.
    + intros i. unfold claim, joined, signed_off. cbn. destruct (a_main a), (_ =? 0); cbn; tauto.
    + unfold cnt, signed_off. cbn. destruct (a_main a), (_ =? 0); reflexivity.
    + intros h Hh i Hi Hc. cbn in Hh. destruct Hh as [<-|Hh].
      * pose proof (gg_vsm _ _ _ _ _ _ HG) as Hvs. inversion Hvs as [|? ? Hvg _]; subst. unfold vs_main in Hvg. rewrite Em in Hvg. apply (Hvg i); auto.
      * rewrite <- map_app in Hh. fold rest in Hh.
        pose proof (pool_mode _ _ _ _ h HG (or_intror Hh)) as Hokh. apply (pool_claim h i Hokh) in Hc.
        pose proof (gg_vs _ _ _ _ _ _ HG) as [Hvs _]. rewrite Forall_forall in Hvs. apply (Hvs h Hh i); auto.
    + rewrite EA in HT'. eapply Fin0; [constructor; apply HWe; exact Hz|exact HG'|exact HT'].
  - exists gm, nm, (p1 ++ Pent c' (Gst (minus (dom g) d1) (minus (rd g) d1) (val g) (MAct (forked a P2)) (seen g)) n2
       :: p2 ++ [Pent (body p) (Gst d1 d1 (val g) (MAct (Act None P1 false false None)) 0) n1]), deps, b, X, Rt.
    simpl. split; [exact HW|]. split.
    + apply Forall_mid. split; [constructor; exact HWe|]. unfold rest in HP.
      rewrite app_assoc. apply Forall_app; split; auto.
    + split; [rewrite map_app; simpl; rewrite map_app; reflexivity|]. split; [|split; [|exact Hb]].
      * rewrite map_app. simpl. rewrite map_app. apply GG_mid. simpl. rewrite app_assoc, <- map_app.
        eapply GG_perm; [apply perm_skip; apply Permutation_cons_append|].
        eapply GG_fork_pool; eauto.
      * rewrite map_app. simpl. rewrite map_app. apply (tally_step R0 (gm :: map eg p1) g (map eg p2) _ [_] _ b X Rt tr HT).
        -- intros i. unfold claim, joined, minus. cbn. rewrite Em, Ej. tauto.
        -- constructor; [|constructor]. intros i. unfold claim, joined. cbn. intros [F|[]]. left. auto.
        -- unfold cnt. cbn. rewrite Em, Ec. reflexivity.
        -- intros _; eexists; reflexivity.
        -- intros t [F|[]]. discriminate.
        -- left. reflexivity.
  - unfold pool_ok in Hok. rewrite Em in Hok. destruct Hok; congruence.
Qed.

(** A goroutine is done. *)
Lemma tally_done A (g : gst T) B b X Rt tr : tally R0 (A ++ g :: B) b X Rt tr -> cnt g = 0 ->
  tally R0 (A ++ noown g MDone :: B) b X Rt tr.
Proof.
  intros HT Hc. assert (K := tally_step R0 A g B (noown g MDone) [] [] b X Rt tr HT). rewrite !app_nil_r in K. apply K.
  - intros i [[]|[]].
  - constructor.
  - rewrite Hc. reflexivity.
  - intros (a & Ea). exfalso. unfold cnt in Hc. rewrite Ea in Hc. destruct (a_credit a); lia.
  - intros t [].
  - left. reflexivity.
Qed.

Lemma t_step e s s' tr : Trace.tstep body e s s' -> TINV tr s -> TINV (tr ++ [e]) s'.
Proof.
  intros Hs HI. destruct Hs.
  - eapply t_main; eauto.
  - eapply t_thr; eauto.
  - (* goroutine -> caller *)
    destruct HI as (gm & nm & pool & deps & b & X & Rt & HW & HP & Ht & HG & HT & Hb). simpl in HW, Ht, HG.
    destruct (pool_split _ _ _ _ Ht) as (p1 & e & p2 & -> & -> & -> & ->). clear Ht.
    apply Forall_mid in HP. destruct HP as [[HWe] HP].
    rewrite map_app in HG, HT; simpl in HG, HT. apply GG_mid in HG. rewrite <- map_app in HG.
    assert (Hok : pool_ok (eg e)) by (eapply pool_mode; [exact HG|]; left; reflexivity).
    set (e0 := EvComm (S (length (map ec p1))) 0).
    assert (Two : forall gm', cnt (eg e) = 0 -> (forall i, claim gm' i -> claim gm i) -> cnt gm' = cnt gm ->
      ((exists a, md gm = MAct a) -> exists a, md gm' = MAct a) ->
      tally R0 (gm' :: map eg p1 ++ noown (eg e) MDone :: map eg p2) b X Rt (tr ++ [e0])).
    { intros gm' E0 E1 E2 E3. apply (tally_done (gm' :: map eg p1) (eg e) (map eg p2)); [|exact E0].
      assert (K := tally_step R0 [] gm (map eg p1 ++ eg e :: map eg p2) gm' [] [e0] b X Rt tr HT E1 (Forall_nil _)). rewrite app_nil_r in K.
      apply K; [|exact E3| |left; reflexivity].
      - rewrite E2. reflexivity.
      - intros t [F|[]]. discriminate. }
    destruct HW; try congruence.
    + (* partner *)
      rewrite H0 in H2. inversion H2; subst.
      destruct HWe; try congruence.
      * rewrite H in H7. inversion H7; subst.
        destruct (GG_join False M R0 gm (eg e) a j j0 _ _ _ v0 HG H4 H5 H9 H10) as (Ha & Hp & HG').
        exists (Gst (union (dom gm) (j_D j)) (union (rd gm) (j_D j)) (mem s) (MAct (setjoin a None)) (seen gm)),
          n', (p1 ++ Pent k1 (noown (eg e) MDone) n'0 :: p2), deps, b, X, Rt. simpl.
        split; [apply H6; auto|]. split; [apply Forall_mid; split; auto; constructor; exact HWe|].
        split; [rewrite map_app; reflexivity|]. split; [|split; [|discriminate]].
        -- rewrite map_app. simpl. apply GG_mid. rewrite <- map_app. exact HG'.
        -- rewrite map_app. apply Two.
           ++ unfold cnt. rewrite H9. reflexivity.
           ++ intros i. unfold claim, joined. cbn. rewrite H4, H5. unfold union. tauto.
           ++ unfold cnt. cbn. rewrite H4. reflexivity.
           ++ intros _. eexists. reflexivity.
      * exfalso. pose proof (gg_phase _ _ _ _ _ _ HG) as Hph. unfold Soundness.phase in Hph. rewrite H4 in Hph.
        destruct (a_main a); [|contradiction]. destruct Hph as (_ & _ & Hl). rewrite sumf_cons in Hl.
        unfold last1 at 1 in Hl. rewrite H9 in Hl.
        pose proof (sumf_nonneg last1 (map eg (p1 ++ p2)) last1_nonneg). lia.
    + (* end signal *)
      rewrite H0 in H2. inversion H2; subst.
      destruct HWe; try congruence.
      * exfalso. pose proof (gg_vsm _ _ _ _ _ _ HG) as Hv. inversion Hv as [|? ? Hv1 _]; subst.
        unfold vs_main in Hv1. rewrite H8 in Hv1. destruct Hv1 as (Hv1 & _). unfold joined in Hv1.
        rewrite H4 in Hv1. discriminate.
      * rewrite H in H6. inversion H6; subst.
        exists (setmd gm (MFinal Pf)), n', (p1 ++ Pent k1 (noown (eg e) MDone) n'0 :: p2), [], b, X, Rt. simpl.
        split; [apply H5|]. split; [apply Forall_mid; split; auto; constructor; exact HWe|].
        split; [rewrite map_app; reflexivity|]. split; [|split; [|discriminate]].
        -- rewrite map_app. simpl. apply GG_mid. rewrite <- map_app. eapply GG_finish; eauto.
        -- rewrite map_app. apply Two.
           ++ unfold cnt. rewrite H8. reflexivity.
           ++ intros i. unfold claim, joined. cbn. rewrite H4. tauto.
           ++ unfold cnt. cbn. rewrite H4. reflexivity.
           ++ intros (a & Ea). congruence.
  - (* caller never sends *)
    exfalso. destruct HI as (gm & nm & pool & deps & b & X & Rt & HW & HP & Ht & HG & _). simpl in *.
    pose proof (main_mode _ _ _ _ HG) as Hmm.
    destruct HW; try congruence; rewrite H4 in Hmm; exact Hmm.
  - exfalso. destruct HI as (gm & nm & pool & deps & b & X & Rt & HW & HP & Ht & HG & _). simpl in *.
    rewrite app_comm_cons, app_assoc in Ht.
    destruct (pool_split _ _ _ _ Ht) as (p1 & e & p2 & -> & _ & -> & _).
    eapply pool_no_recv; [exact HG| | |exact H0]; [apply in_elt|].
    rewrite Forall_forall in HP. apply HP. apply in_elt.
  - exfalso. destruct HI as (gm & nm & pool & deps & b & X & Rt & HW & HP & Ht & HG & _). simpl in *.
    destruct (pool_split _ _ _ _ Ht) as (p1 & e & p2 & -> & _ & -> & _).
    eapply pool_no_recv; [exact HG| | |exact H]; [apply in_elt|].
    rewrite Forall_forall in HP. apply HP. apply in_elt.
  - destruct HI as (gm & nm & pool & deps & b & X & Rt & HW & HP & Ht & HG & HT & Hb). simpl in HW, Ht, HG.
    destruct HW; try congruence. rewrite H1 in H. inversion H; subst.
    exists (setmd gm (MAct (settok a (z <? seen gm)))), n', pool, deps, b, X, Rt. simpl.
    split; [apply H6|]. split; [exact HP|]. split; [reflexivity|].
    split; [apply GG_stale_main; auto|]. split; [|discriminate].
    assert (K := tally_step R0 [] gm (map eg pool) (setmd gm (MAct (settok a (z <? seen gm)))) [] [EvStep 0] b X Rt tr HT). rewrite app_nil_r in K.
    apply K; [|constructor| |intros _; eexists; reflexivity|intros t [F|[]]; discriminate|left; reflexivity].
    + intros i. unfold claim, joined. cbn. rewrite H3. auto.
    + unfold cnt. cbn. rewrite H3. reflexivity.
  - destruct HI as (gm & nm & pool & deps & b & X & Rt & HW & HP & Ht & HG & HT & Hb). simpl in HW, Ht, HG.
    destruct (pool_split _ _ _ _ Ht) as (p1 & e & p2 & -> & -> & -> & ->). clear Ht.
    apply Forall_mid in HP. destruct HP as [[HWe] HP].
    rewrite map_app in HG, HT; simpl in HG, HT. apply GG_mid in HG. rewrite <- map_app in HG.
    destruct HWe; try congruence. rewrite H1 in H. inversion H; subst.
    exists gm, nm, (p1 ++ Pent (k z) (setmd (eg e) (MAct (settok a (z <? seen (eg e))))) n' :: p2), deps, b, X, Rt. simpl.
    split; [exact HW|]. split; [apply Forall_mid; split; auto; constructor; apply H6|].
    split; [rewrite map_app; reflexivity|]. split; [|split; [|exact Hb]].
    + rewrite map_app. simpl. apply GG_mid. rewrite <- map_app. apply GG_stale_pool; auto.
    + rewrite map_app. simpl.
      assert (K := tally_step R0 (gm :: map eg p1) (eg e) (map eg p2) (setmd (eg e) (MAct (settok a (z <? seen (eg e))))) [] [EvStep (S (length (map ec p1)))] b X Rt tr HT).
      rewrite app_nil_r in K. apply K; [|constructor| |intros _; eexists; reflexivity|intros t [F|[]]; discriminate|left; reflexivity].
      * intros i. unfold claim, joined. cbn. rewrite H3. auto.
      * unfold cnt. cbn. rewrite H3. reflexivity.
Qed.

Lemma t_env s s' tr : estep M R0 s s' -> TINV tr s -> TINV tr s'.
Proof.
  intros Hs (gm & nm & pool & deps & b & X & Rt & HW & HP & Ht & HG & HT). destruct Hs. simpl in HW, HP, Ht, HG.
  exists gm, nm, pool, deps, b, X, Rt. simpl. split; [exact HW|]. split; [exact HP|]. split; [exact Ht|]. split; [apply GG_env; auto|exact HT].
Qed.

(** The goroutines that have signed off and those still counted have cells of their own. *)
Lemma tally_share gm pool deps s b X Rt tr L :
  GGI gm pool deps s -> tally R0 (gm :: pool) b X Rt tr -> (forall i, R0 i -> In i L) ->
  (Z.of_nat gr + 1) * (Z.of_nat (length Rt) + sumf cnt (gm :: pool)) <= Z.of_nat (length L).
Proof.
  intros [H1 H2 H3 H4 H5 H6 H7 H8] [T1 T2 T3 _ _] HL.
  destruct (owners_aux M R0 pool s H3 H4 H6) as (n & Hl & Hi).
  assert (HA : atLeast (weight gm + n) (fun i => R0 i /\ exists g, In g (gm :: pool) /\ claim g i)).
  { eapply atLeast_app; [| | |exact (wf_weight M R0 s gm H2)|exact Hi].
    - intros i [(a & Ea) Hd]. destruct H2 as (A & B & _ & _ & F). unfold wf_md, own in *. unfold claim, joined in *. rewrite Ea in *.
      split.
      + destruct Hd as [Hd|Hd]; [auto|]. destruct F as (_ & _ & F). destruct (a_join a) as [j|]; [|contradiction].
        apply (F j eq_refl). exact Hd.
      + exists gm. split; [left; reflexivity|]. rewrite Ea. destruct Hd as [Hd|Hd]; [left; auto|right; exact Hd].
    - intros i (g & Hg & _ & Hdg). rewrite Forall_forall in *. destruct (H3 g Hg) as (A & B & _). split; [auto|]. exists g. split; [right; exact Hg|left; auto].
    - intros i [_ Hd] (g & Hg & (ag & Eg) & Hdg).
      rewrite Forall_forall in *. pose proof (H5 g Hg) as V. destruct (H3 g Hg) as (A & _).
      destruct H2 as (A2 & _). unfold vs_main in V. rewrite Eg in V. apply (V i); [|auto].
      destruct Hd as [Hd|Hd]; [left; auto|right; exact Hd]. }
  destruct HA as (l & Hn & Hlen & Hin).
  assert (Hnd : NoDup (X ++ l)).
  { apply NoDup_both; [exact T1|exact Hn|]. intros x Hx Hx'. destruct (Hin x Hx') as (_ & g & Hg & Hc). exact (proj2 (T3 x Hx) g Hg Hc). }
  assert (Hinc : incl (X ++ l) L).
  { intros x Hx. apply HL. apply in_app_iff in Hx. destruct Hx as [Hx|Hx]; [apply T3; exact Hx|apply Hin; exact Hx]. }
  pose proof (NoDup_incl_length Hnd Hinc) as Hle. rewrite app_length, T2, Hlen in Hle.
  assert (K : sumf cnt (gm :: pool) <= sumf load (gm :: pool)) by (apply sumf_le; intros g _; apply cnt_load).
  rewrite (sumf_cons load) in K. pose proof (weight_load gm). nia.
Qed.

Lemma filter_both {X} (f : X -> bool) l : length l = (length (filter f l) + length (filter (fun x => negb (f x)) l))%nat.
Proof. induction l as [|x l IH]; cbn; [reflexivity|]. destruct (f x); cbn; lia. Qed.

Lemma act_count (Lg : list (gst T)) b X Rt tr idx : tally R0 Lg b X Rt tr -> NoDup idx -> (forall t, In t idx -> In (EvAtomic t) tr) ->
  Z.of_nat (length idx) <= Z.of_nat (length Rt) + sumf cnt Lg.
Proof.
  intros HT Hnd Hi.
  set (f := fun t => if in_dec Nat.eq_dec t Rt then true else false).
  remember (filter f idx) as i1 eqn:E1. remember (filter (fun t => negb (f t)) idx) as i2 eqn:E2. symmetry in E1, E2.
  assert (El : (length idx = length i1 + length i2)%nat) by (rewrite <- E1, <- E2; apply filter_both). unfold f in E1, E2.
  assert (L1 : (length i1 <= length Rt)%nat).
  { apply NoDup_incl_length; [rewrite <- E1; apply NoDup_filter; exact Hnd|].
    intros t Ht. rewrite <- E1 in Ht. apply filter_In in Ht. destruct Ht as [_ Ht]. destruct (in_dec Nat.eq_dec t Rt); [assumption|discriminate]. }
  assert (L2 : Z.of_nat (length i2) <= sumf cnt Lg).
  { apply count_le; [rewrite <- E2; apply NoDup_filter; exact Hnd|exact cnt_pos|].
    intros t Ht. rewrite <- E2 in Ht. apply filter_In in Ht. destruct Ht as [Ht Hf].
    destruct (ta_who _ _ _ _ _ _ HT t (Hi t Ht)) as [F|(g & a & F1 & F2)].
    - destruct (in_dec Nat.eq_dec t Rt); [discriminate|contradiction].
    - exists g. split; [exact F1|]. unfold cnt. rewrite F2. destruct (a_credit a); lia. }
  lia.
Qed.

Variables (N : nat) (c0 : cmd P T R) (m0 : Z -> T) (mg0 : Z) (md0 : mode T).
Hypothesis Hmg0 : 0 <= mg0 <= M.
Hypothesis Hmd0 : md0 = MSeq \/ md0 = MInit.
Hypothesis HW0 : WP N c0 (Gst R0 R0 m0 md0 0).

Lemma t_reach tr s : texec body M R0 tr (start c0 m0 mg0) s -> TINV tr s.
Proof.
  intro H. remember (start c0 m0 mg0) as s0 eqn:E. induction H; subst.
  - exists (Gst R0 R0 m0 md0 0), N, [], [], false, [], []. simpl. split; [exact HW0|]. split; [constructor|].
    split; [reflexivity|]. split; [eapply start_GG; eauto|]. split; [|reflexivity].
    constructor; [constructor|reflexivity|intros x []| |intros t []].
    split; [reflexivity|]. split; [reflexivity|]. unfold sumf, cnt. cbn. destruct Hmd0 as [-> | ->]; reflexivity.
  - eapply t_step; eauto.
  - eapply t_env; eauto.
Qed.

Theorem tally_all tr s L idx : texec body M R0 tr (start c0 m0 mg0) s -> (forall i, R0 i -> In i L) ->
  NoDup idx -> (forall t, In t idx -> In (EvAtomic t) tr) ->
  exists q, (Z.of_nat gr + 1) * q <= Z.of_nat (length L) /\ 0 <= q /\ Z.of_nat (length idx) <= q /\ atoms tr <= Z.max 0 (2 * q - 1).
Proof.
  intros H HL Hnd Hi. destruct (t_reach tr s H) as (gm & nm & pool & deps & b & X & Rt & _ & _ & _ & HG & HT & _).
  exists (Z.of_nat (length Rt) + sumf cnt (gm :: map eg pool)).
  split; [eapply tally_share; eauto|].
  assert (P0 : 0 <= sumf cnt (gm :: map eg pool)) by (apply sumf_nonneg; exact cnt_pos).
  split; [lia|]. split; [eapply act_count; eauto|].
  pose proof (ta_sum _ _ _ _ _ _ HT) as Hs. destruct b; lia.
Qed.
End Run.
