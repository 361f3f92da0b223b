(** * Soundness of the concurrent logic

    A program accepted by the rules of [ConcLogic.v] behaves well on the machine of
    [Lang.v] under every interleaving and every environment. *)

From Coq Require Import List ZArith Lia Bool Permutation.
From Verif Require Import Lang SeqLogic ConcLogic.
Import ListNotations.
Open Scope Z_scope.
Local Arguments Z.mul : simpl never.
Local Arguments Z.add : simpl never.
Local Arguments Z.sub : simpl never.

(** ** Lists *)

Fixpoint pairwise {X} (Rl : X -> X -> Prop) (l : list X) : Prop :=
  match l with
  | [] => True
  | x :: l' => Forall (Rl x) l' /\ pairwise Rl l'
  end.

Lemma pairwise_perm {X} (Rl : X -> X -> Prop) l l' :
  (forall x y, Rl x y -> Rl y x) -> Permutation l l' -> pairwise Rl l -> pairwise Rl l'.
Proof.
  intros Hs HP; induction HP; simpl; auto.
  - intros [H1 H2]. split; auto. eapply Permutation_Forall; eauto.
  - intros [H1 [H2 H3]]. inversion H1; subst. repeat split; auto.
Qed.

Definition sumf {X} (f : X -> Z) (l : list X) : Z := fold_right (fun x a => f x + a) 0 l.

Lemma sumf_cons {X} (f : X -> Z) x l : sumf f (x :: l) = f x + sumf f l.
Proof. reflexivity. Qed.

Lemma sumf_perm {X} (f : X -> Z) l l' : Permutation l l' -> sumf f l = sumf f l'.
Proof. induction 1; simpl; unfold sumf in *; simpl; lia. Qed.

Lemma sumf_app {X} (f : X -> Z) l l' : sumf f (l ++ l') = sumf f l + sumf f l'.
Proof. induction l; simpl; unfold sumf in *; simpl; lia. Qed.

Lemma sumf_nonneg {X} (f : X -> Z) l : (forall x, 0 <= f x) -> 0 <= sumf f l.
Proof. intro H. induction l; unfold sumf in *; simpl; [lia|]. specialize (H a). lia. Qed.

Lemma sumf_zero {X} (f : X -> Z) l :
  (forall x, 0 <= f x) -> sumf f l = 0 -> Forall (fun x => f x = 0) l.
Proof.
  intros H. induction l as [|x l IH]; intro E; constructor; rewrite sumf_cons in E;
    pose proof (H x); pose proof (sumf_nonneg f l H); [lia|]. apply IH; lia.
Qed.

Lemma sumf_pos_ex {X} (f : X -> Z) l : 0 < sumf f l -> exists x, In x l /\ 0 < f x.
Proof.
  induction l as [|x l IH]; unfold sumf in *; simpl; [lia|]. intro H.
  destruct (Z_lt_le_dec 0 (f x)); [exists x; auto|].
  destruct IH as (y & Hy & Hf); [lia|]. exists y; auto.
Qed.

Lemma sumf_le {X} (f h : X -> Z) l : (forall x, In x l -> f x <= h x) -> sumf f l <= sumf h l.
Proof.
  induction l as [|x l IH]; unfold sumf in *; simpl; [lia|]. intro H.
  pose proof (H x (or_introl eq_refl)). assert (fold_right (fun x a => f x + a) 0 l <= fold_right (fun x a => h x + a) 0 l) by (apply IH; auto). lia.
Qed.

Lemma count_le {X} (f : X -> Z) (l : list X) (idx : list nat) :
  NoDup idx -> (forall x, 0 <= f x) ->
  (forall i, In i idx -> exists x, nth_error l i = Some x /\ 1 <= f x) ->
  Z.of_nat (length idx) <= sumf f l.
Proof.
  revert idx; induction l as [|x l IH]; intros idx Hnd Hf Hi.
  - destruct idx as [|i idx]; [simpl; lia|]. destruct (Hi i (or_introl eq_refl)) as (y & Hy & _).
    destruct i; discriminate.
  - rewrite sumf_cons.
    assert (G : forall idx', NoDup idx' -> (forall i, In i idx' -> In i idx /\ i <> O) ->
              Z.of_nat (length idx') <= sumf f l).
    { intros idx' Hnd' Hin. rewrite <- (map_length Nat.pred). apply IH; auto.
      - clear - Hnd' Hin. induction idx' as [|i idx' IH]; simpl; constructor.
        + rewrite in_map_iff. intros (j & E & Hj). inversion Hnd'; subst.
          destruct (Hin i) as [_ Hx1]; [left; auto|]. destruct (Hin j) as [_ Hx3]; [right; auto|].
          assert (i = j) by lia. subst. contradiction.
        + inversion Hnd'; subst. apply IH; auto. intros; apply Hin; right; auto.
      - intros i Hi'. apply in_map_iff in Hi'. destruct Hi' as (j & <- & Hj).
        destruct (Hin j Hj) as [H1 H2]. destruct (Hi j H1) as (y & Hy & Hfy).
        destruct j; [congruence|]. exists y. auto. }
    destruct (in_dec Nat.eq_dec O idx) as [H0|H0].
    + destruct (in_split _ _ H0) as (l1 & l2 & ->).
      destruct (Hi O H0) as (y & Hy & Hfy). simpl in Hy. inversion Hy; subst.
      pose proof (NoDup_remove_1 _ _ _ Hnd) as Hnd1. pose proof (NoDup_remove_2 _ _ _ Hnd) as Hnd2.
      rewrite app_length in *. simpl length. 
      assert (HG : Z.of_nat (length (l1 ++ l2)) <= sumf f l).
      { apply G; auto. intros i Hin. split; [apply in_app_iff in Hin; apply in_app_iff; simpl; tauto|].
        intros ->. contradiction. }
      rewrite app_length in HG. lia.
    + assert (Z.of_nat (length idx) <= sumf f l); [|specialize (Hf x); lia].
      apply G; auto. intros i Hin. split; auto. intros ->. contradiction.
Qed.

Section Sound.
Context {Gr : grain}.
Context {P T R : Type}.
Variable body : P -> cmd P T unit.
Variables (Dm D : nat) (Fr : Prop) (M : Z) (R0 : cells) (Post : R -> (Z -> T) -> Prop).

Definition disj (a b : cells) : Prop := forall i, a i -> b i -> False.

Definition joined (g : gst T) : option (join T) :=
  match md g with MAct a => a_join a | _ => None end.

Definition claim (g : gst T) : cells :=
  fun i => rd g i \/ match joined g with Some j => j_D j i | None => False end.

Definition cnt (g : gst T) : Z :=
  match md g with MAct a => if a_credit a then 2 else 1 | _ => 0 end.
Definition wt (g : gst T) : Z :=
  match md g with
  | MAct a => (if a_credit a then 2 else 1) + (if a_tok a then 1 else 0)
  | _ => 0
  end.
Definition part1 (g : gst T) : Z := match md g with MPart _ => 1 | _ => 0 end.
Definition last1 (g : gst T) : Z := match md g with MLast => 1 | _ => 0 end.
Definition prom (w : Z -> T) (g : gst T) : Prop :=
  match md g with MAct a => a_P a w | _ => True end.

(** The cells of a goroutine, including those lent to its partner. *)
Definition own (g : gst T) : cells :=
  fun i => dom g i \/ match joined g with Some j => j_D j i | None => False end.

Definition wf_md (g : gst T) : Prop :=
  match md g with
  | MAct a => many (own g) /\
              (a_credit a = true -> twice (dom g) /\ a_tok a = false /\ a_join a = None) /\
              (forall j, a_join a = Some j -> a_tok a = true /\ (forall i, j_D j i -> R0 i) /\ twice (own g))
  | MPart _ | MSeq | MInit => True
  | _ => forall i, ~ rd g i
  end.

Definition wf (s : shared T) (g : gst T) : Prop :=
  (forall i, dom g i -> rd g i) /\ (forall i, rd g i -> R0 i) /\
  agrees g (mem s) /\ seen g <= M /\ wf_md g.

Definition pool_ok (g : gst T) : Prop :=
  match md g with
  | MAct a => a_main a = None /\ a_join a = None
  | MPart _ | MLast | MDone => True
  | _ => False
  end.

Definition vs_main (gm g : gst T) : Prop :=
  match md g with
  | MPart j => joined gm = Some j /\ (forall i, rd g i -> j_D j i) /\
               disj (dom gm) (rd g) /\ disj (rd gm) (dom g)
  | _ => disj (claim gm) (rd g)
  end.

Definition vs (g g' : gst T) : Prop := disj (rd g) (rd g').

Definition dep_ok (s : shared T) (gm : gst T) (pool : list (gst T)) (d : cells * promise T) : Prop :=
  (forall i, fst d i -> R0 i) /\
  (forall w, (forall i, fst d i -> w i = mem s i) -> snd d w) /\
  disj (fst d) (claim gm) /\ Forall (fun g => disj (fst d) (rd g)) pool.

Definition common (Pf : promise T) (gm : gst T) (pool : list (gst T))
  (deps : list (cells * promise T)) (s : shared T) : Prop :=
  ngor s = sumf cnt (gm :: pool) /\ (Fr -> sumf wt (gm :: pool) <= 2 * (M - 1)) /\ 2 <= M /\ chans s = 1 /\
  (forall w, prom w gm -> Forall (prom w) pool -> Forall (fun d => snd d w) deps -> Pf w).

Definition phase (gm : gst T) (pool : list (gst T)) (deps : list (cells * promise T))
  (s : shared T) : Prop :=
  match md gm with
  | MSeq | MInit => pool = [] /\ deps = [] /\ chans s = 0
  | MAct a => match a_main a with
              | None => False
              | Some Pf => common Pf gm pool deps s /\
                  sumf part1 pool = (match a_join a with Some _ => 1 | None => 0 end) /\
                  sumf last1 pool = 0
              end
  | MWait Pf => common Pf gm pool deps s /\ sumf part1 pool = 0 /\
                sumf last1 pool = (if ngor s =? 0 then 1 else 0)
  | MFinal Pf => Forall (fun g => md g = MDone) pool /\ chans s = 1 /\
                 (forall w, (forall i, R0 i -> w i = mem s i) -> Pf w)
  | _ => False
  end.

Record GG (gm : gst T) (pool : list (gst T)) (deps : list (cells * promise T)) (s : shared T) : Prop := {
  gg_maxg : 0 <= maxg s <= M;
  gg_wfm : wf s gm;
  gg_wf : Forall (wf s) pool;
  gg_pool : Forall pool_ok pool;
  gg_vsm : Forall (vs_main gm) pool;
  gg_vs : pairwise vs pool;
  gg_deps : Forall (dep_ok s gm pool) deps;
  gg_phase : phase gm pool deps s
}.

Lemma vs_sym g g' : vs g g' -> vs g' g.
Proof. unfold vs, disj; eauto. Qed.

Lemma GG_perm gm pool pool' deps s :
  Permutation pool pool' -> GG gm pool deps s -> GG gm pool' deps s.
Proof.
  intros HP [H1 H2 H3 H4 H5 H6 H7 H8]. constructor; auto.
  - eapply Permutation_Forall; eauto.
  - eapply Permutation_Forall; eauto.
  - eapply Permutation_Forall; eauto.
  - eapply pairwise_perm; eauto. apply vs_sym.
  - eapply Forall_impl; [|exact H7]. intros d (A & B & C & E). repeat split; auto.
    eapply Permutation_Forall; eauto.
  - assert (HC : forall Pf, common Pf gm pool deps s -> common Pf gm pool' deps s).
    { intros Pf (A & B & C & E & F). unfold common. rewrite !sumf_cons in *.
      rewrite <- !(sumf_perm _ _ _ HP). repeat split; auto.
      intros w Hw Hp. apply F; auto. eapply Permutation_Forall; [|exact Hp]. symmetry; exact HP. }
    unfold phase in *. destruct (md gm); auto.
    + destruct H8 as (-> & B & C). apply Permutation_nil in HP. auto.
    + destruct H8 as (-> & B & C). apply Permutation_nil in HP. auto.
    + destruct (a_main a); auto. rewrite <- !(sumf_perm _ _ _ HP). intuition.
    + rewrite <- !(sumf_perm _ _ _ HP). intuition.
    + intuition. eapply Permutation_Forall; eauto.
Qed.

Lemma GG_env gm pool deps s m' mg' :
  GG gm pool deps s -> 0 <= mg' <= M -> (forall i, R0 i -> m' i = mem s i) ->
  GG gm pool deps (Sh m' (ngor s) mg' (chans s)).
Proof.
  intros [H1 H2 H3 H4 H5 H6 H7 H8] Hm Hmem.
  assert (Hwf : forall g, wf s g -> wf (Sh m' (ngor s) mg' (chans s)) g).
  { intros g (A & B & C & E & F). repeat split; auto. intros i Hi. simpl. rewrite Hmem; auto. }
  constructor; simpl; auto.
  - eapply Forall_impl; [|exact H3]. auto.
  - eapply Forall_impl; [|exact H7]. intros d (A & B & C & E). repeat split; auto.
    simpl. intros w Hw. apply B. intros i Hi. rewrite Hw; auto.
  - unfold phase in *. simpl. destruct (md gm); auto.
    destruct H8 as (A & B & C). repeat split; auto. intros w Hw. apply C.
    intros i Hi. rewrite Hw; auto.
Qed.

(** A step that keeps [dom], [rd], [md]. *)
Lemma GG_local_main gm gm' pool deps s m' :
  GG gm pool deps s ->
  dom gm' = dom gm -> rd gm' = rd gm -> md gm' = md gm -> seen gm' <= M ->
  agrees gm' m' -> (forall i, ~ dom gm i -> m' i = mem s i) ->
  ((exists i, dom gm i) -> live gm \/ forall i, m' i = mem s i) ->
  GG gm' pool deps (Sh m' (ngor s) (maxg s) (chans s)).
Proof.
  intros [H1 H2 H3 H4 H5 H6 H7 H8] Ed Er Em Hs Ha Hf Hl.
  assert (Ej : joined gm' = joined gm) by (unfold joined; rewrite Em; reflexivity).
  assert (Ec : claim gm' = claim gm) by (unfold claim; rewrite Er, Ej; reflexivity).
  constructor; simpl; auto.
  - destruct H2 as (A & B & C & E & F). repeat split; auto; rewrite ?Ed, ?Er; auto.
    unfold wf_md, own, joined in *. rewrite Em, Ed, Er. exact F.
  - rewrite Forall_forall in *. intros g Hg. pose proof (H3 g Hg) as (A & B & C & E & F).
    pose proof (H5 g Hg) as V. repeat split; auto.
    intros i Hi. simpl. rewrite Hf; [apply C; auto|]. intro Hd.
    destruct H2 as (A2 & _).
    unfold vs_main in V. destruct (md g); try (apply (V i); [left; apply A2; exact Hd|exact Hi]).
    destruct V as (_ & _ & V & _). apply (V i); auto.
  - eapply Forall_impl; [|exact H5]. intros g V. unfold vs_main in *.
    rewrite Ed, Er, Ej, Ec. exact V.
  - rewrite Forall_forall in *. intros d Hd. destruct (H7 d Hd) as (A & B & C & E).
    repeat split; auto; [|rewrite Ec; auto]. simpl. intros w Hw. apply B. intros i Hi.
    rewrite Hw by exact Hi. apply Hf. intro Hdi. apply (C i Hi). left.
    destruct H2 as (A2 & _). auto.
  - unfold phase, common in *. rewrite Em. simpl.
    assert (Ecn : cnt gm' = cnt gm) by (unfold cnt; rewrite Em; reflexivity).
    assert (Ew : wt gm' = wt gm) by (unfold wt; rewrite Em; reflexivity).
    assert (Ep : forall w, prom w gm' = prom w gm) by (intro; unfold prom; rewrite Em; reflexivity).
    rewrite !sumf_cons in *. rewrite Ecn, Ew.
    destruct (md gm) eqn:Emd; auto.
    + destruct (a_main a); auto. destruct H8 as ((C1 & C2 & C3 & C4 & C5) & C6 & C7).
      repeat split; auto. intros w. rewrite Ep. apply C5.
    + destruct H8 as ((C1 & C2 & C3 & C4 & C5) & C6 & C7).
      repeat split; auto. intros w. rewrite Ep. apply C5.
    + destruct H8 as (A & B & C). repeat split; auto. intros w Hw. apply C.
      intros i Hi. rewrite Hw by exact Hi. apply Hf. intro Hd.
      destruct H2 as (A2 & _ & _ & _ & F). unfold wf_md in F. rewrite Emd in F. apply (F i). auto.
Qed.

Lemma GG_local_pool gm g g' pool deps s m' :
  GG gm (g :: pool) deps s ->
  dom g' = dom g -> rd g' = rd g -> md g' = md g -> seen g' <= M ->
  agrees g' m' -> (forall i, ~ dom g i -> m' i = mem s i) ->
  (md g = MDone -> forall i, m' i = mem s i) ->
  GG gm (g' :: pool) deps (Sh m' (ngor s) (maxg s) (chans s)).
Proof.
  intros [H1 H2 H3 H4 H5 H6 H7 H8] Ed Er Em Hs Ha Hf Hdn.
  inversion H3 as [|? ? Hwg Hwp]; subst. inversion H4 as [|? ? Hkg Hkp]; subst.
  inversion H5 as [|? ? Hvg Hvp]; subst. destruct H6 as [Hpg Hpp].
  pose proof Hwg as (Ad & _).
  constructor; simpl; auto.
  - destruct H2 as (A & B & C & E & F). repeat split; auto.
    intros i Hi. simpl. rewrite Hf; [apply C; auto|]. intro Hd.
    unfold vs_main in Hvg. destruct (md g); try (apply (Hvg i); [left; exact Hi|auto]).
    destruct Hvg as (_ & _ & _ & V). apply (V i); auto.
  - constructor.
    + destruct Hwg as (A & B & C & E & F). repeat split; auto; rewrite ?Ed, ?Er; auto.
      unfold wf_md, own, joined in *. rewrite Em, Ed, Er. exact F.
    + rewrite Forall_forall in *. intros h Hh. pose proof (Hwp h Hh) as (A & B & C & E & F).
      repeat split; auto. intros i Hi. simpl. rewrite Hf; [apply C; auto|].
      intro Hd. apply (Hpg h Hh i); auto.
  - constructor; auto. unfold pool_ok in *. rewrite Em. exact Hkg.
  - constructor; auto. unfold vs_main in *. rewrite Em, Er, Ed. exact Hvg.
  - split; auto. unfold vs in *. rewrite Er. exact Hpg.
  - rewrite Forall_forall in *. intros d Hd. destruct (H7 d Hd) as (A & B & C & E).
    inversion E as [|? ? E1 E2]; subst.
    repeat split; auto.
    + simpl. intros w Hw. apply B. intros i Hi. rewrite Hw by exact Hi. apply Hf.
      intro Hdi. apply (E1 i Hi); auto.
    + constructor; auto. rewrite Er. exact E1.
  - unfold phase, common in *.
    assert (Ecn : cnt g' = cnt g) by (unfold cnt; rewrite Em; reflexivity).
    assert (Ew : wt g' = wt g) by (unfold wt; rewrite Em; reflexivity).
    assert (Ep : part1 g' = part1 g) by (unfold part1; rewrite Em; reflexivity).
    assert (El : last1 g' = last1 g) by (unfold last1; rewrite Em; reflexivity).
    assert (Epr : forall w, prom w g' -> prom w g) by (intro; unfold prom; rewrite Em; auto).
    assert (Hall : forall w, Forall (prom w) (g' :: pool) -> Forall (prom w) (g :: pool)).
    { intros w Hw. inversion Hw; subst. constructor; auto. }
    simpl. rewrite !sumf_cons in *. rewrite Ecn, Ew, Ep, El.
    destruct (md gm) eqn:Emd; auto.
    + destruct H8 as [H8 _]. discriminate.
    + destruct H8 as [H8 _]. discriminate.
    + destruct (a_main a); auto. destruct H8 as ((C1 & C2 & C3 & C4 & C5) & B & C).
      repeat split; auto.
    + destruct H8 as ((C1 & C2 & C3 & C4 & C5) & B & C). repeat split; auto.
    + destruct H8 as (A & B & C). inversion A; subst. repeat split; auto.
      * constructor; auto. congruence.
      * intros w Hw. apply C. intros i Hi. rewrite Hw by exact Hi. apply Hdn; auto.
Qed.

Lemma many_own g : many (dom g) -> many (own g).
Proof. apply atLeast_sub. intros i Hi. left. exact Hi. Qed.

Lemma many_dom g a : wf_md g -> md g = MAct a -> a_join a = None -> many (dom g).
Proof.
  unfold wf_md. intros F Em Ej. rewrite Em in F. destruct F as (F & _). eapply atLeast_sub; [|exact F].
  intros i Hi. unfold own, joined in Hi. rewrite Em, Ej in Hi. destruct Hi as [Hi|[]]. exact Hi.
Qed.

Lemma GG_makesv gm pool deps s Pr :
  GG gm pool deps s -> md gm = MInit -> 1 < seen gm -> many (dom gm) ->
  GG (setmd gm (MAct (Act (Some Pr) Pr false true None))) pool deps
     (Sh (mem s) 1 (maxg s) (chans s + 1)).
Proof.
  intros [H1 H2 H3 H4 H5 H6 H7 H8] Em Hs Hd.
  unfold phase in H8. rewrite Em in H8. destruct H8 as (-> & -> & Hc).
  destruct H2 as (A & B & C & E & F).
  constructor; simpl; auto.
  - refine (conj A (conj B (conj C (conj E _)))). unfold wf_md; simpl.
    split; [apply many_own; exact Hd|split; [discriminate|congruence]].
  - unfold phase, common. simpl. unfold sumf; simpl. unfold cnt, wt; simpl.
    repeat split; auto; try lia.
Qed.

(** Distinct cells of [R0], more than [gr] of them per unit of the counter. *)
Definition weight (g : gst T) : nat :=
  match md g with
  | MAct a => if a_credit a then S gr + S gr else match a_join a with Some _ => S gr + S gr | None => S gr end
  | _ => O
  end.

(** The goroutines counted, and the partner. *)
Definition load (g : gst T) : Z :=
  match md g with
  | MAct a => if a_credit a then 2 else match a_join a with Some _ => 2 | None => 1 end
  | _ => 0
  end.

Lemma weight_load g : Z.of_nat (weight g) = (Z.of_nat gr + 1) * load g.
Proof. unfold weight, load. destruct (md g); try lia. destruct (a_credit a), (a_join a); lia. Qed.

Lemma cnt_load g : 0 <= cnt g <= load g.
Proof. unfold cnt, load. destruct (md g); try lia. destruct (a_credit a), (a_join a); lia. Qed.

Lemma wf_weight s g : wf s g -> atLeast (weight g) (fun i => (exists a, md g = MAct a) /\ own g i).
Proof.
  intros (_ & _ & _ & _ & F). unfold weight, wf_md in *.
  assert (G0 : forall d, atLeast 0 d) by (intro d; exists []; repeat split; [constructor|intros i []]).
  destruct (md g) eqn:Em; try apply G0. destruct F as (F1 & F2 & F3).
  destruct (a_credit a).
  - destruct (F2 eq_refl) as (F4 & _). eapply atLeast_sub; [|exact F4]. intros i Hi. split; [eauto|left; exact Hi].
  - destruct (a_join a) as [j|].
    { destruct (F3 j eq_refl) as (_ & _ & F4). eapply atLeast_sub; [|exact F4]. intros i Hi. split; [eauto|exact Hi]. }
    eapply atLeast_sub; [|exact F1]. intros i Hi. split; [eauto|exact Hi].
Qed.

Lemma owners_aux (gs : list (gst T)) s :
  Forall (wf s) gs -> Forall pool_ok gs -> pairwise vs gs ->
  exists n, Z.of_nat n = (Z.of_nat gr + 1) * sumf load gs /\
    atLeast n (fun i => exists g, In g gs /\ (exists a, md g = MAct a) /\ dom g i).
Proof.
  induction gs as [|g gs IH]; intros HF HK HP.
  - exists O. split; [unfold sumf; simpl; lia|]. exists []. repeat split; [constructor|intros i []].
  - inversion HF as [|? ? Hg HF']; subst. inversion HK as [|? ? Kg HK']; subst. destruct HP as [HP1 HP2].
    destruct (IH HF' HK' HP2) as (n & Hl & Hi).
    assert (Hown : forall i, (exists a, md g = MAct a) /\ own g i -> (exists a, md g = MAct a) /\ dom g i).
    { intros i [(a & Ea) Ho]. split; [eauto|]. unfold own, joined, pool_ok in *. rewrite Ea in *.
      destruct Kg as [_ Kj]. rewrite Kj in Ho. destruct Ho as [Ho|[]]. exact Ho. }
    exists (weight g + n)%nat. split; [rewrite sumf_cons, Nat2Z.inj_add, weight_load; lia|].
    eapply atLeast_app; [| | |exact (wf_weight s g Hg)|exact Hi].
    + intros i Hd. exists g. split; [left; reflexivity|apply Hown; exact Hd].
    + intros i (g' & ? & ?). exists g'. simpl; auto.
    + intros i Hd (g' & Hg' & _ & Hd'). apply Hown in Hd. destruct Hd as [_ Hd].
      rewrite Forall_forall in HP1, HF'. destruct (HF' g' Hg') as (A' & _). destruct Hg as (A & _).
      apply (HP1 g' Hg' i); auto.
Qed.

Hypothesis R0fin : exists l, (forall i, R0 i -> In i l) /\ Z.of_nat (length l) < two64.

(** The counter, in units of more than [gr] elements. *)
Lemma counter_share gm pool deps s L :
  GG gm pool deps s -> (forall i, R0 i -> In i L) ->
  (Z.of_nat gr + 1) * sumf load (gm :: pool) <= Z.of_nat (length L).
Proof.
  intros [H1 H2 H3 H4 H5 H6 H7 H8] HL.
  destruct (owners_aux pool s H3 H4 H6) as (n & Hl & Hi).
  assert (HA : atLeast (weight gm + n) R0).
  { eapply atLeast_app; [| | |exact (wf_weight s gm H2)|exact Hi].
    - intros i [(a & Ea) Hd]. destruct H2 as (A & B & _ & _ & F). unfold wf_md, own, joined in *. rewrite Ea in *.
      destruct Hd as [Hd|Hd]; [auto|]. destruct F as (_ & _ & F). destruct (a_join a) as [j|]; [|contradiction].
      apply (F j eq_refl). exact Hd.
    - intros i (g & Hg & _ & Hdg). rewrite Forall_forall in *. destruct (H3 g Hg) as (A & B & _). auto.
    - intros i [_ Hd] (g & Hg & (ag & Eg) & Hdg).
      rewrite Forall_forall in *. pose proof (H5 g Hg) as V. destruct (H3 g Hg) as (A & _).
      destruct H2 as (A2 & _). unfold vs_main in V. rewrite Eg in V. apply (V i); [|auto].
      destruct Hd as [Hd|Hd]; [left; auto|right; exact Hd]. }
  destruct HA as (l & Hn & Hlen & Hin).
  pose proof (NoDup_incl_length Hn (fun i Hi0 => HL i (Hin i Hi0))) as Hle.
  rewrite sumf_cons. pose proof (weight_load gm). lia.
Qed.

(** The counter cannot wrap around. *)
Lemma counter_small gm pool deps s :
  GG gm pool deps s -> sumf cnt (gm :: pool) < two64.
Proof.
  intro HG. destruct R0fin as (L & HL & Hsz). pose proof (counter_share gm pool deps s L HG HL) as H.
  assert (0 <= sumf cnt (gm :: pool)) by (apply sumf_nonneg; intro g; apply cnt_load).
  assert (sumf cnt (gm :: pool) <= sumf load (gm :: pool)) by (apply sumf_le; intros g _; apply cnt_load). nia.
Qed.

Lemma sumf_wt_le_cnt (gs : list (gst T)) s : Forall (wf s) gs -> sumf wt gs <= 2 * sumf cnt gs.
Proof.
  induction gs as [|g gs IH]; intro HF; [unfold sumf; simpl; lia|].
  inversion HF as [|? ? Hg HF']; subst. specialize (IH HF'). rewrite !sumf_cons.
  assert (wt g <= 2 * cnt g); [|lia].
  destruct Hg as (_ & _ & _ & _ & F). unfold wt, cnt, wf_md in *.
  destruct (md g); try lia. destruct (a_credit a), (a_tok a); lia.
Qed.

(** Changing the bookkeeping of one counted goroutine, possibly giving away cells to a
    new goroutine. *)
Lemma GG_act_main gm a a' (d' r' : cells) sn' new pool deps s ng' :
  GG gm pool deps s -> md gm = MAct a -> a_main a' = a_main a -> a_join a = None -> a_join a' = None ->
  (forall i, d' i -> dom gm i) -> (forall i, r' i -> rd gm i) -> (forall i, d' i -> r' i) ->
  many d' -> (a_credit a' = true -> twice d' /\ a_tok a' = false) ->
  sn' <= M ->
  let gm' := Gst d' r' (val gm) (MAct a') sn' in
  Forall (fun c => wf s c /\ pool_ok c /\ part1 c = 0 /\ last1 c = 0 /\
                   (forall i, rd c i -> rd gm i) /\ disj (rd c) r') new ->
  pairwise vs new ->
  ng' = sumf cnt (gm' :: new ++ pool) -> (Fr -> sumf wt (gm' :: new ++ pool) <= 2 * (M - 1)) ->
  (forall w, a_P a' w -> Forall (prom w) new -> a_P a w) ->
  GG gm' (new ++ pool) deps (Sh (mem s) ng' (maxg s) (chans s)).
Proof.
  intros [H1 H2 H3 H4 H5 H6 H7 H8] Em Ea Ej Ej' Hd Hr Hdr Hne Hcr Hsn gm' Hnew Hpwn Hng Hwt HP.
  assert (Hcl : forall i, claim gm' i -> claim gm i).
  { intros i [Hi|Hi]; [left; apply Hr; exact Hi|]. unfold joined, gm' in Hi. simpl in Hi.
    rewrite Ej' in Hi. contradiction. }
  assert (Hsep : forall c g, In c new -> In g pool -> vs c g).
  { intros c g Hc Hg i Hi1 Hi2. rewrite Forall_forall in *.
    destruct (Hnew c Hc) as (_ & _ & _ & _ & Hrd & _). pose proof (H5 g Hg) as V.
    unfold vs_main in V. destruct (md g) eqn:Eg; try (apply (V i); [left; auto|auto]).
    destruct V as (V & _). unfold joined in V. rewrite Em in V. congruence. }
  constructor; simpl; auto.
  - destruct H2 as (A & B & C & E & F). split; [exact Hdr|]. split; [simpl; auto|].
    split; [intros i Hi; apply C; apply Hr; exact Hi|]. split; [exact Hsn|].
    unfold wf_md; simpl. split; [apply many_own; exact Hne|]. split; [intro Hx; destruct (Hcr Hx); auto|congruence].
  - apply Forall_app; split; auto. eapply Forall_impl; [|exact Hnew]. intros c Hc. apply Hc.
  - apply Forall_app; split; auto. eapply Forall_impl; [|exact Hnew]. intros c Hc. apply Hc.
  - apply Forall_app; split.
    + eapply Forall_impl; [|exact Hnew]. intros c (Hc1 & Hc2 & Hc3 & Hc4 & Hc5 & Hc6).
      unfold vs_main. unfold part1 in Hc3. destruct (md c); try discriminate;
      intros i Hi1 Hi2; (destruct Hi1 as [Hi1|Hi1];
        [apply (Hc6 i); auto|unfold joined, gm' in Hi1; simpl in Hi1; rewrite Ej' in Hi1; exact Hi1]).
    + eapply Forall_impl; [|exact H5]. intros g V. unfold vs_main in *.
      destruct (md g); try (intros i Hi1 Hi2; apply (V i); auto; fail).
      destruct V as (V & _). unfold joined in V. rewrite Em in V. congruence.
  - clear - Hpwn H6 Hsep. induction new as [|c new IH]; simpl; auto.
    destruct Hpwn as [Hp1 Hp2]. split.
    + apply Forall_app; split; auto. apply Forall_forall. intros g Hg. apply Hsep; simpl; auto.
    + apply IH; auto. intros c' g Hc Hg. apply Hsep; simpl; auto.
  - eapply Forall_impl; [|exact H7]. intros d (A & B & C & E). repeat split; auto.
    + intros i Hi1 Hi2. apply (C i); auto.
    + apply Forall_app; split; auto. eapply Forall_impl; [|exact Hnew].
      intros c (_ & _ & _ & _ & Hc5 & _) i Hi1 Hi2. apply (C i); auto. left; auto.
  - unfold phase in *. rewrite Em in H8. simpl. rewrite Ea. destruct (a_main a) as [Pf|]; [|contradiction].
    destruct H8 as ((C1 & C2 & C3 & C4 & C5) & C6 & C7).
    rewrite !sumf_app. rewrite C6, C7, Ej, Ej'.
    assert (Z1 : sumf part1 new = 0).
    { clear - Hnew. induction new; auto. inversion Hnew; subst. rewrite sumf_cons, IHnew by auto.
      destruct H1 as (_ & _ & E & _). lia. }
    assert (Z2 : sumf last1 new = 0).
    { clear - Hnew. induction new; auto. inversion Hnew; subst. rewrite sumf_cons, IHnew by auto.
      destruct H1 as (_ & _ & _ & E & _). lia. }
    rewrite Z1, Z2. repeat split; auto. simpl. intros w Hw1 Hw2 Hw3.
    apply Forall_app in Hw2. destruct Hw2 as [Hw2 Hw2']. apply C5; auto.
    unfold prom. rewrite Em. apply HP; auto.
Qed.

Lemma GG_act_pool gm g a a' (d' r' : cells) sn' new pool deps s ng' :
  GG gm (g :: pool) deps s -> md g = MAct a -> a_main a' = a_main a -> a_join a' = None ->
  (forall i, d' i -> dom g i) -> (forall i, r' i -> rd g i) -> (forall i, d' i -> r' i) ->
  many d' -> (a_credit a' = true -> twice d' /\ a_tok a' = false) ->
  sn' <= M ->
  let g' := Gst d' r' (val g) (MAct a') sn' in
  Forall (fun c => wf s c /\ pool_ok c /\ part1 c = 0 /\ last1 c = 0 /\
                   (forall i, rd c i -> rd g i) /\ disj (rd c) r') new ->
  pairwise vs new ->
  ng' = sumf cnt (gm :: g' :: new ++ pool) -> (Fr -> sumf wt (gm :: g' :: new ++ pool) <= 2 * (M - 1)) ->
  0 < ng' ->
  (forall w, a_P a' w -> Forall (prom w) new -> a_P a w) ->
  GG gm (g' :: new ++ pool) deps (Sh (mem s) ng' (maxg s) (chans s)).
Proof.
  intros [H1 H2 H3 H4 H5 H6 H7 H8] Em Ea Ej' Hd Hr Hdr Hne Hcr Hsn g' Hnew Hpwn Hng Hwt Hpos HP.
  inversion H3 as [|? ? Hwg Hwp]; subst. inversion H4 as [|? ? Hkg Hkp]; subst.
  inversion H5 as [|? ? Hvg Hvp]; subst. destruct H6 as [Hpg Hpp].
  assert (Hvg' : disj (claim gm) (rd g)) by (unfold vs_main in Hvg; rewrite Em in Hvg; exact Hvg).
  constructor; simpl; auto.
  - constructor.
    + destruct Hwg as (A & B & C & E & F). split; [exact Hdr|]. split; [simpl; auto|].
      split; [intros i Hi; apply C; apply Hr; exact Hi|]. split; [exact Hsn|].
      unfold wf_md; simpl. split; [apply many_own; exact Hne|]. split; [intro Hx; destruct (Hcr Hx); auto|congruence].
    + apply Forall_app; split; auto. eapply Forall_impl; [|exact Hnew]. intros c Hc. apply Hc.
  - constructor.
    + unfold pool_ok in *. simpl. rewrite Em in Hkg. rewrite Ea. intuition.
    + apply Forall_app; split; auto. eapply Forall_impl; [|exact Hnew]. intros c Hc. apply Hc.
  - constructor; [|apply Forall_app; split; auto].
    + unfold vs_main. simpl. intros i Hi1 Hi2. apply (Hvg' i); auto.
    + eapply Forall_impl; [|exact Hnew]. intros c (Hc1 & Hc2 & Hc3 & Hc4 & Hc5 & Hc6).
      unfold vs_main. unfold part1 in Hc3. destruct (md c); try discriminate;
      intros i Hi1 Hi2; apply (Hvg' i); auto.
  - split.
    + apply Forall_app; split.
      * eapply Forall_impl; [|exact Hnew]. intros c (Hc1 & Hc2 & Hc3 & Hc4 & Hc5 & Hc6) i Hi1 Hi2.
        apply (Hc6 i); auto.
      * eapply Forall_impl; [|exact Hpg]. intros h Hh i Hi1 Hi2. apply (Hh i); auto.
    + assert (Hsep : forall c h, In c new -> In h pool -> vs c h).
      { intros c h Hc Hh i Hi1 Hi2. rewrite Forall_forall in *.
        destruct (Hnew c Hc) as (_ & _ & _ & _ & Hrd & _). apply (Hpg h Hh i); auto. }
      clear - Hpwn Hpp Hsep. induction new as [|c new IH]; simpl; auto.
      destruct Hpwn as [Hp1 Hp2]. split.
      * apply Forall_app; split; auto. apply Forall_forall. intros h Hh. apply Hsep; simpl; auto.
      * apply IH; auto. intros c' h Hc Hh. apply Hsep; simpl; auto.
  - eapply Forall_impl; [|exact H7]. intros d (A & B & C & E). inversion E as [|? ? E1 E2]; subst.
    repeat split; auto. constructor.
    + simpl. intros i Hi1 Hi2. apply (E1 i); auto.
    + apply Forall_app; split; auto. eapply Forall_impl; [|exact Hnew].
      intros c (_ & _ & _ & _ & Hc5 & _) i Hi1 Hi2. apply (E1 i); auto.
  - assert (Z1 : sumf part1 new = 0).
    { clear - Hnew. induction new; auto. inversion Hnew; subst. rewrite sumf_cons, IHnew by auto.
      destruct H1 as (_ & _ & E & _). lia. }
    assert (Z2 : sumf last1 new = 0).
    { clear - Hnew. induction new; auto. inversion Hnew; subst. rewrite sumf_cons, IHnew by auto.
      destruct H1 as (_ & _ & _ & E & _). lia. }
    assert (HPr : forall w, Forall (prom w) (g' :: new ++ pool) -> Forall (prom w) (g :: pool)).
    { intros w Hw. inversion Hw as [|? ? Hw1 Hw2]; subst. apply Forall_app in Hw2.
      destruct Hw2 as [Hw2 Hw3]. constructor; auto. unfold prom in *. rewrite Em. simpl in Hw1.
      apply HP; auto. }
    assert (Lg : part1 g = 0 /\ last1 g = 0) by (unfold part1, last1; rewrite Em; auto).
    destruct Lg as [Lg1 Lg2].
    unfold phase, common in *. cbn [ngor maxg chans mem].
    replace (sumf part1 (g' :: new ++ pool)) with (sumf part1 (g :: pool))
      by (rewrite !sumf_cons, sumf_app, Z1, Lg1; reflexivity).
    replace (sumf last1 (g' :: new ++ pool)) with (sumf last1 (g :: pool))
      by (rewrite !sumf_cons, sumf_app, Z2, Lg2; reflexivity).
    destruct (md gm) eqn:Emd; auto.
    + destruct H8 as [H8 _]; discriminate.
    + destruct H8 as [H8 _]; discriminate.
    + destruct (a_main a0); auto. destruct H8 as ((C1 & C2 & C3 & C4 & C5) & C6 & C7).
      repeat split; auto.
    + destruct H8 as ((C1 & C2 & C3 & C4 & C5) & C6 & C7).
      assert (Hn0 : ngor s <> 0).
      { rewrite C1. rewrite !sumf_cons. unfold cnt at 2. rewrite Em.
        assert (0 <= cnt gm) by (unfold cnt; destruct (md gm); try lia; destruct (a_credit a0); lia).
        assert (0 <= sumf cnt pool).
        { apply sumf_nonneg. intro x. unfold cnt. destruct (md x); try lia. destruct (a_credit a0); lia. }
        destruct (a_credit a); lia. }
      repeat split; auto. rewrite C7.
      destruct (Z.eqb_spec (ngor s) 0); [congruence|].
      match goal with |- _ = if ?b then _ else _ => destruct b eqn:Eb; auto; apply Z.eqb_eq in Eb end.
      exfalso. rewrite sumf_cons in Hpos. simpl in Hpos, Eb. lia.
    + destruct H8 as (A & _). inversion A; subst. congruence.
Qed.


Lemma cnt_nonneg g : 0 <= cnt g.
Proof. unfold cnt. destruct (md g); try lia. destruct (a_credit a); lia. Qed.

Lemma wt_nonneg g : 0 <= wt g.
Proof. unfold wt. destruct (md g); try lia. destruct (a_credit a), (a_tok a); lia. Qed.

Lemma part1_nonneg g : 0 <= part1 g.
Proof. unfold part1. destruct (md g); lia. Qed.

Lemma last1_nonneg g : 0 <= last1 g.
Proof. unfold last1. destruct (md g); lia. Qed.

(** Facts valid as long as somebody is counted. *)
Lemma phase_common gm g a pool deps s :
  GG gm pool deps s -> In g (gm :: pool) -> md g = MAct a ->
  exists Pf, common Pf gm pool deps s.
Proof.
  intros [H1 H2 H3 H4 H5 H6 H7 H8] Hin Em. unfold phase in H8.
  destruct (md gm) eqn:E; try contradiction.
  - destruct H8 as (-> & _). destruct Hin as [<-|[]]. congruence.
  - destruct H8 as (-> & _). destruct Hin as [<-|[]]. congruence.
  - destruct (a_main a0) as [Pf|]; [|contradiction]. exists Pf. tauto.
  - exists Pf. tauto.
  - destruct H8 as (A & _). destruct Hin as [<-|Hin]; [congruence|].
    rewrite Forall_forall in A. specialize (A g Hin). congruence.
Qed.

Lemma GG_loadgor_main gm a pool deps s :
  GG gm pool deps s -> md gm = MAct a -> a_credit a = false -> a_join a = None ->
  GG (setmd gm (MAct (settok a (ngor s <? seen gm)))) pool deps s.
Proof.
  intros HG Em Ec Ej. pose proof HG as [H1 H2 H3 H4 H5 H6 H7 H8].
  destruct (phase_common gm gm a pool deps s HG (or_introl eq_refl) Em) as (Pf & C1 & C2 & C3 & C4 & C5).
  destruct H2 as (A & B & C & E & F).
  assert (HC : cnt gm = 1) by (unfold cnt; rewrite Em, Ec; reflexivity).
  replace s with (Sh (mem s) (ngor s) (maxg s) (chans s)) at 2 by (destruct s; reflexivity).
  eapply (GG_act_main gm a (settok a (ngor s <? seen gm)) (dom gm) (rd gm) (seen gm) [] pool deps s (ngor s));
    simpl; auto.
  - exact (many_dom _ _ F Em ltac:(assumption)).
  - rewrite Ec. discriminate.
  - rewrite C1, !sumf_cons, HC. unfold cnt at 2. simpl. rewrite Ec. reflexivity.
  - intro Hfr. specialize (C2 Hfr). pose proof (sumf_wt_le_cnt pool s H3) as Hw.
    rewrite !sumf_cons in *. unfold wt at 1 in C2. rewrite Em, Ec in C2.
    unfold wt at 1. simpl. rewrite Ec. destruct (Z.ltb_spec (ngor s) (seen gm)).
    + lia.
    + destruct (a_tok a); lia.
Qed.

(** The same for an outdated value. *)
Lemma GG_stale_main gm a pool deps s b : (Fr -> False) ->
  GG gm pool deps s -> md gm = MAct a -> a_credit a = false -> a_join a = None ->
  GG (setmd gm (MAct (settok a b))) pool deps s.
Proof.
  intros Hfr HG Em Ec Ej. pose proof HG as [H1 H2 H3 H4 H5 H6 H7 H8].
  destruct (phase_common gm gm a pool deps s HG (or_introl eq_refl) Em) as (Pf & C1 & C2 & C3 & C4 & C5).
  destruct H2 as (A & B & C & E & F).
  assert (HC : cnt gm = 1) by (unfold cnt; rewrite Em, Ec; reflexivity).
  replace s with (Sh (mem s) (ngor s) (maxg s) (chans s)) by (destruct s; reflexivity).
  eapply (GG_act_main gm a (settok a b) (dom gm) (rd gm) (seen gm) [] pool deps s (ngor s));
    simpl; auto.
  - exact (many_dom _ _ F Em ltac:(assumption)).
  - rewrite Ec. discriminate.
  - rewrite C1, !sumf_cons, HC. unfold cnt at 2. simpl. rewrite Ec. reflexivity.
  - contradiction.
Qed.

Lemma GG_stale_pool gm g a pool deps s b : (Fr -> False) ->
  GG gm (g :: pool) deps s -> md g = MAct a -> a_credit a = false -> a_join a = None ->
  GG gm (setmd g (MAct (settok a b)) :: pool) deps s.
Proof.
  intros Hfr HG Em Ec Ej. pose proof HG as [H1 H2 H3 H4 H5 H6 H7 H8].
  destruct (phase_common gm g a _ deps s HG (or_intror (or_introl eq_refl)) Em) as (Pf & C1 & C2 & C3 & C4 & C5).
  inversion H3 as [|? ? Hwg Hwp]; subst. pose proof Hwg as (A & B & C & E & F).
  assert (HC : cnt g = 1) by (unfold cnt; rewrite Em, Ec; reflexivity).
  assert (Hpos : 0 < ngor s).
  { rewrite C1, !sumf_cons, HC. pose proof (cnt_nonneg gm).
    pose proof (sumf_nonneg cnt pool cnt_nonneg). lia. }
  replace s with (Sh (mem s) (ngor s) (maxg s) (chans s)) by (destruct s; reflexivity).
  eapply (GG_act_pool gm g a (settok a b) (dom g) (rd g) (seen g) [] pool deps s (ngor s));
    simpl; auto.
  - exact (many_dom _ _ F Em ltac:(assumption)).
  - rewrite Ec. discriminate.
  - rewrite C1, !sumf_cons, HC. unfold cnt at 4. simpl. rewrite Ec. reflexivity.
  - contradiction.
Qed.

Lemma GG_inc_main gm a pool deps s :
  GG gm pool deps s -> md gm = MAct a -> a_credit a = false -> a_tok a = true -> a_join a = None ->
  twice (dom gm) ->
  GG (setmd gm (MAct (setcredit a))) pool deps
     (Sh (mem s) ((ngor s + 1) mod two64) (maxg s) (chans s)).
Proof.
  intros HG Em Ec Et Ej H2c. pose proof HG as [H1 H2 H3 H4 H5 H6 H7 H8].
  destruct (phase_common gm gm a pool deps s HG (or_introl eq_refl) Em) as (Pf & C1 & C2 & C3 & C4 & C5).
  destruct H2 as (A & B & C & E & F).
  assert (HC : cnt gm = 1) by (unfold cnt; rewrite Em, Ec; reflexivity).
  assert (HCs : forall h, md h = MAct (setcredit a) -> cnt h = 2)
    by (intros h Hh; unfold cnt; rewrite Hh; reflexivity).
  assert (G : GG (setmd gm (MAct (setcredit a))) pool deps
     (Sh (mem s) (ngor s + 1) (maxg s) (chans s))).
  { eapply (GG_act_main gm a (setcredit a) (dom gm) (rd gm) (seen gm) [] pool deps s (ngor s + 1));
      simpl; auto.
    - exact (many_dom _ _ F Em ltac:(assumption)).
    - rewrite C1, !sumf_cons, HC, HCs by reflexivity. lia.
    - intro Hfr. specialize (C2 Hfr). rewrite !sumf_cons in *. unfold wt at 1 in C2. rewrite Em, Ec, Et in C2.
      unfold wt at 1. simpl. lia. }
  pose proof (counter_small _ _ _ _ G) as Hs.
  destruct (phase_common _ (setmd gm (MAct (setcredit a))) _ _ _ _ G (or_introl eq_refl) eq_refl)
    as (Pf' & D1 & _).
  cbn [ngor] in D1. rewrite <- D1 in Hs. rewrite Z.mod_small; [exact G|].
  rewrite C1 in *. pose proof (sumf_nonneg cnt (gm :: pool) cnt_nonneg). lia.
Qed.

Lemma GG_loadgor_pool gm g a pool deps s :
  GG gm (g :: pool) deps s -> md g = MAct a -> a_credit a = false -> a_join a = None ->
  GG gm (setmd g (MAct (settok a (ngor s <? seen g))) :: pool) deps s.
Proof.
  intros HG Em Ec Ej. pose proof HG as [H1 H2 H3 H4 H5 H6 H7 H8].
  destruct (phase_common gm g a _ deps s HG (or_intror (or_introl eq_refl)) Em) as (Pf & C1 & C2 & C3 & C4 & C5).
  inversion H3 as [|? ? Hwg Hwp]; subst. pose proof Hwg as (A & B & C & E & F).
  assert (HC : cnt g = 1) by (unfold cnt; rewrite Em, Ec; reflexivity).
  assert (Hpos : 0 < ngor s).
  { rewrite C1, !sumf_cons, HC. pose proof (cnt_nonneg gm).
    pose proof (sumf_nonneg cnt pool cnt_nonneg). lia. }
  replace s with (Sh (mem s) (ngor s) (maxg s) (chans s)) at 2 by (destruct s; reflexivity).
  eapply (GG_act_pool gm g a (settok a (ngor s <? seen g)) (dom g) (rd g) (seen g) [] pool deps s (ngor s));
    simpl; auto.
  - exact (many_dom _ _ F Em ltac:(assumption)).
  - rewrite Ec. discriminate.
  - rewrite C1, !sumf_cons, HC. unfold cnt at 4. simpl. rewrite Ec. reflexivity.
  - intro Hfr. specialize (C2 Hfr). pose proof (sumf_wt_le_cnt pool s Hwp) as Hw.
    pose proof (sumf_wt_le_cnt [gm] s (Forall_cons _ H2 (Forall_nil _))) as Hw'.
    rewrite !sumf_cons in *. unfold wt at 2 in C2. rewrite Em, Ec in C2.
    unfold wt at 2. simpl. rewrite Ec. simpl sumf in Hw'. destruct (Z.ltb_spec (ngor s) (seen g)).
    + lia.
    + destruct (a_tok a); lia.
Qed.

Lemma GG_inc_pool gm g a pool deps s :
  GG gm (g :: pool) deps s -> md g = MAct a -> a_credit a = false -> a_tok a = true -> a_join a = None ->
  twice (dom g) ->
  GG gm (setmd g (MAct (setcredit a)) :: pool) deps
     (Sh (mem s) ((ngor s + 1) mod two64) (maxg s) (chans s)).
Proof.
  intros HG Em Ec Et Ej H2c. pose proof HG as [H1 H2 H3 H4 H5 H6 H7 H8].
  destruct (phase_common gm g a _ deps s HG (or_intror (or_introl eq_refl)) Em) as (Pf & C1 & C2 & C3 & C4 & C5).
  inversion H3 as [|? ? Hwg Hwp]; subst. pose proof Hwg as (A & B & C & E & F).
  assert (HC : cnt g = 1) by (unfold cnt; rewrite Em, Ec; reflexivity).
  assert (HCs : forall h, md h = MAct (setcredit a) -> cnt h = 2)
    by (intros h Hh; unfold cnt; rewrite Hh; reflexivity).
  assert (Hpos : 0 < ngor s).
  { rewrite C1, !sumf_cons, HC. pose proof (cnt_nonneg gm).
    pose proof (sumf_nonneg cnt pool cnt_nonneg). lia. }
  assert (G : GG gm (setmd g (MAct (setcredit a)) :: pool) deps
     (Sh (mem s) (ngor s + 1) (maxg s) (chans s))).
  { eapply (GG_act_pool gm g a (setcredit a) (dom g) (rd g) (seen g) [] pool deps s (ngor s + 1));
      simpl; auto; try lia.
    - exact (many_dom _ _ F Em ltac:(assumption)).
    - rewrite C1, !sumf_cons, HC, (HCs (Gst _ _ _ _ _)) by reflexivity. lia.
    - intro Hfr. specialize (C2 Hfr). rewrite !sumf_cons in *. unfold wt at 2 in C2. rewrite Em, Ec, Et in C2.
      unfold wt at 2. simpl. lia. }
  pose proof (counter_small _ _ _ _ G) as Hs.
  destruct (phase_common _ (setmd g (MAct (setcredit a))) _ _ _ _ G (or_intror (or_introl eq_refl)) eq_refl)
    as (Pf' & D1 & _).
  cbn [ngor] in D1. rewrite <- D1 in Hs. rewrite Z.mod_small; [exact G|]. lia.
Qed.

Lemma GG_fork_main gm a pool deps s (d1 : cells) (P1 P2 : promise T) :
  GG gm pool deps s -> md gm = MAct a -> a_credit a = true -> a_join a = None ->
  (forall i, d1 i -> dom gm i) -> many d1 -> many (minus (dom gm) d1) ->
  (forall w, P1 w -> P2 w -> a_P a w) ->
  GG (Gst (minus (dom gm) d1) (minus (rd gm) d1) (val gm) (MAct (forked a P2)) (seen gm))
     (Gst d1 d1 (val gm) (MAct (Act None P1 false false None)) 0 :: pool) deps s.
Proof.
  intros HG Em Ec Ej Hd1 Hn1 Hn2 HP. pose proof HG as [H1 H2 H3 H4 H5 H6 H7 H8].
  destruct (phase_common gm gm a pool deps s HG (or_introl eq_refl) Em) as (Pf & C1 & C2 & C3 & C4 & C5).
  destruct H2 as (A & B & C & E & F).
  assert (HC : cnt gm = 2) by (unfold cnt; rewrite Em, Ec; reflexivity).
  replace s with (Sh (mem s) (ngor s) (maxg s) (chans s)) by (destruct s; reflexivity).
  eapply (GG_act_main gm a (forked a P2) (minus (dom gm) d1) (minus (rd gm) d1) (seen gm)
            [Gst d1 d1 (val gm) (MAct (Act None P1 false false None)) 0] pool deps s (ngor s));
    simpl; auto.
  - intros i [Hi _]; auto.
  - intros i [Hi _]; auto.
  - intros i [Hi1 Hi2]; split; auto.
  - discriminate.
  - constructor; [|constructor]. split.
    + split; [simpl; auto|]. split; [simpl; auto|]. split; [intros i Hi; apply C; auto|].
      split; [simpl; lia|]. unfold wf_md. simpl. split; [apply many_own; exact Hn1|]. split; [discriminate|congruence].
    + unfold pool_ok, part1, last1; simpl. repeat split; auto. intros i Hi1 Hi2. destruct Hi2; auto.
  - rewrite C1, !sumf_cons, HC. unfold cnt at 2 3. simpl. lia.
  - intro Hfr. specialize (C2 Hfr). rewrite !sumf_cons in *. unfold wt at 1 in C2. rewrite Em, Ec in C2.
    unfold wf_md in F. rewrite Em in F. destruct F as (_ & F & _).
    destruct (F Ec) as (_ & Et & _). rewrite Et in C2.
    unfold wt at 1 2. simpl. rewrite Et. lia.
  - intros w Hw1 Hw2. inversion Hw2; subst. apply HP; auto.
Qed.

Lemma GG_fork_pool gm g a pool deps s (d1 : cells) (P1 P2 : promise T) :
  GG gm (g :: pool) deps s -> md g = MAct a -> a_credit a = true -> a_join a = None ->
  (forall i, d1 i -> dom g i) -> many d1 -> many (minus (dom g) d1) ->
  (forall w, P1 w -> P2 w -> a_P a w) ->
  GG gm (Gst (minus (dom g) d1) (minus (rd g) d1) (val g) (MAct (forked a P2)) (seen g) ::
         Gst d1 d1 (val g) (MAct (Act None P1 false false None)) 0 :: pool) deps s.
Proof.
  intros HG Em Ec Ej Hd1 Hn1 Hn2 HP. pose proof HG as [H1 H2 H3 H4 H5 H6 H7 H8].
  destruct (phase_common gm g a _ deps s HG (or_intror (or_introl eq_refl)) Em) as (Pf & C1 & C2 & C3 & C4 & C5).
  inversion H3 as [|? ? Hwg Hwp]; subst. pose proof Hwg as (A & B & C & E & F).
  assert (HC : cnt g = 2) by (unfold cnt; rewrite Em, Ec; reflexivity).
  replace s with (Sh (mem s) (ngor s) (maxg s) (chans s)) by (destruct s; reflexivity).
  eapply (GG_act_pool gm g a (forked a P2) (minus (dom g) d1) (minus (rd g) d1) (seen g)
            [Gst d1 d1 (val g) (MAct (Act None P1 false false None)) 0] pool deps s (ngor s));
    simpl; auto.
  - intros i [Hi _]; auto.
  - intros i [Hi _]; auto.
  - intros i [Hi1 Hi2]; split; auto.
  - discriminate.
  - constructor; [|constructor]. split.
    + split; [simpl; auto|]. split; [simpl; auto|]. split; [intros i Hi; apply C; auto|].
      split; [simpl; lia|]. unfold wf_md. simpl. split; [apply many_own; exact Hn1|]. split; [discriminate|congruence].
    + unfold pool_ok, part1, last1; simpl. repeat split; auto. intros i Hi1 Hi2. destruct Hi2; auto.
  - rewrite C1, !sumf_cons, HC. unfold cnt at 4 5. simpl. lia.
  - intro Hfr. specialize (C2 Hfr). rewrite !sumf_cons in *. unfold wt at 2 in C2. rewrite Em, Ec in C2.
    unfold wf_md in F. rewrite Em in F. destruct F as (_ & F & _).
    destruct (F Ec) as (_ & Et & _). rewrite Et in C2.
    unfold wt at 2 3. simpl. rewrite Et. lia.
  - rewrite C1, !sumf_cons, HC. pose proof (cnt_nonneg gm).
    pose proof (sumf_nonneg cnt pool cnt_nonneg). lia.
  - intros w Hw1 Hw2. inversion Hw2; subst. apply HP; auto.
Qed.

Lemma dec_counter z : 1 <= z < two64 -> (z + (two64 - 1)) mod two64 = z - 1.
Proof.
  intro H. replace (z + (two64 - 1)) with (z - 1 + 1 * two64) by lia.
  rewrite Z.mod_add by (unfold two64; lia). apply Z.mod_small. lia.
Qed.

Lemma GG_dec_main gm a pool deps s :
  GG gm pool deps s -> md gm = MAct a -> a_credit a = false -> a_join a = None ->
  (forall w, agrees gm w -> a_P a w) ->
  let z := (ngor s + (two64 - 1)) mod two64 in
  0 <= z /\ exists deps', GG (noown gm (signed_off a z)) pool deps' (Sh (mem s) z (maxg s) (chans s)).
Proof.
  intros HG Em Ec Ej HP z. pose proof HG as [H1 H2 H3 H4 H5 H6 H7 H8].
  pose proof (counter_small _ _ _ _ HG) as Hsm.
  destruct (phase_common gm gm a pool deps s HG (or_introl eq_refl) Em) as (Pf0 & C1 & C2 & C3 & C4 & _).
  assert (HC : cnt gm = 1) by (unfold cnt; rewrite Em, Ec; reflexivity).
  assert (Hw1 : 1 <= wt gm) by (unfold wt; rewrite Em, Ec; destruct (a_tok a); lia).
  pose proof (sumf_nonneg cnt pool cnt_nonneg) as Hpn.
  assert (Ez : z = sumf cnt pool).
  { unfold z. rewrite dec_counter; rewrite C1, sumf_cons in *; lia. }
  split; [lia|].
  pose proof H2 as (A & B & C & E & F).
  unfold phase in H8. rewrite Em in H8. unfold signed_off.
  destruct (a_main a) as [Pf|] eqn:Eam; [|contradiction].
  destruct H8 as ((_ & _ & _ & _ & C5) & C6 & C7). rewrite Ej in C6.
  destruct (Z.eqb_spec z 0) as [Hz|Hz].
  - (* all done *)
    assert (Hz0 : Forall (fun g => md g = MDone) pool).
    { pose proof (sumf_zero cnt pool cnt_nonneg ltac:(lia)) as Z1.
      pose proof (sumf_zero part1 pool part1_nonneg C6) as Z2.
      pose proof (sumf_zero last1 pool last1_nonneg C7) as Z3.
      rewrite Forall_forall in *. intros g Hg. pose proof (H4 g Hg) as K. pose proof (Z1 g Hg) as K1.
      pose proof (Z2 g Hg) as K2. pose proof (Z3 g Hg) as K3.
      unfold pool_ok, cnt, part1, last1 in *. destruct (md g); try contradiction; try discriminate; auto.
      destruct (a_credit a0); discriminate. }
    exists []. constructor; simpl; auto.
    + split; [intros i []|]. split; [intros i []|]. split; [intros i []|]. split; [exact E|].
      intros i [].
    + rewrite Forall_forall in *. intros g Hg. unfold vs_main. rewrite (Hz0 g Hg).
      intros i Hi1 Hi2. destruct Hi1 as [[]|[]].
    + unfold phase. simpl. split; [exact Hz0|]. split; [exact C4|].
      intros w Hw. apply C5.
      * unfold prom. rewrite Em. apply HP. intros i Hi. rewrite Hw by auto. apply C; auto.
      * rewrite Forall_forall in *. intros g Hg. unfold prom. rewrite (Hz0 g Hg). exact I.
      * rewrite Forall_forall in *. intros d Hd. destruct (H7 d Hd) as (A1 & A2 & _). apply A2.
        intros i Hi. apply Hw. auto.
  - exists ((rd gm, a_P a) :: deps). constructor; simpl; auto.
    + split; [intros i []|]. split; [intros i []|]. split; [intros i []|]. split; [exact E|].
      intros i [].
    + pose proof (sumf_zero part1 pool part1_nonneg C6) as Z2.
      rewrite Forall_forall in *. intros g Hg. unfold vs_main. pose proof (Z2 g Hg) as K2.
      unfold part1 in K2.
      destruct (md g); try discriminate; intros i Hi1 Hi2; destruct Hi1 as [[]|[]].
    + constructor.
      * split; [exact B|]. split; [|split].
        -- simpl. intros w Hw. apply HP. intros i Hi. rewrite Hw by auto. apply C; auto.
        -- intros i Hi1 Hi2. destruct Hi2 as [[]|[]].
        -- simpl. pose proof (sumf_zero part1 pool part1_nonneg C6) as Z2.
           rewrite Forall_forall in *. intros g Hg. pose proof (H5 g Hg) as V. pose proof (Z2 g Hg) as K2.
           unfold vs_main, part1 in *.
           destruct (md g); try discriminate; intros i Hi1 Hi2; apply (V i); auto; left; auto.
      * eapply Forall_impl; [|exact H7]. intros d (A1 & A2 & A3 & A4). repeat split; auto.
        intros i Hi1 Hi2. destruct Hi2 as [[]|[]].
    + unfold phase. simpl. unfold common. split; [|split].
      * simpl. rewrite !sumf_cons in *. unfold cnt at 1, wt at 1. simpl.
        repeat split; auto; try lia; try (intro Hfr; specialize (C2 Hfr); lia).
        intros w _ Hw1' Hw2. inversion Hw2; subst. apply C5; auto. unfold prom. rewrite Em. auto.
      * exact C6.
      * rewrite C7. destruct (Z.eqb_spec z 0); [contradiction|reflexivity].
Qed.

Lemma GG_dec_pool gm g a pool deps s :
  GG gm (g :: pool) deps s -> md g = MAct a -> a_credit a = false -> a_join a = None ->
  (forall w, agrees g w -> a_P a w) ->
  let z := (ngor s + (two64 - 1)) mod two64 in
  0 <= z /\ exists deps', GG gm (noown g (signed_off a z) :: pool) deps' (Sh (mem s) z (maxg s) (chans s)).
Proof.
  intros HG Em Ec Ej HP z. pose proof HG as [H1 H2 H3 H4 H5 H6 H7 H8].
  pose proof (counter_small _ _ _ _ HG) as Hsm.
  destruct (phase_common gm g a _ deps s HG (or_intror (or_introl eq_refl)) Em) as (Pf & HCm).
  pose proof HCm as (C1 & C2 & C3 & C4 & _).
  inversion H3 as [|? ? Hwg Hwp]; subst. inversion H4 as [|? ? Hkg Hkp]; subst.
  inversion H5 as [|? ? Hvg Hvp]; subst. destruct H6 as [Hpg Hpp].
  assert (HC : cnt g = 1) by (unfold cnt; rewrite Em, Ec; reflexivity).
  assert (Hw1 : 1 <= wt g) by (unfold wt; rewrite Em, Ec; destruct (a_tok a); lia).
  pose proof (sumf_nonneg cnt pool cnt_nonneg) as Hpn. pose proof (cnt_nonneg gm) as Hcm.
  assert (Ez : z = cnt gm + sumf cnt pool).
  { unfold z. rewrite dec_counter; rewrite C1, !sumf_cons in *; lia. }
  split; [lia|].
  pose proof Hwg as (A & B & C & E & F).
  unfold pool_ok in Hkg. rewrite Em in Hkg. destruct Hkg as [Eam _].
  assert (Hvg' : disj (claim gm) (rd g)) by (unfold vs_main in Hvg; rewrite Em in Hvg; exact Hvg).
  set (g' := noown g (signed_off a z)).
  assert (Emd : md g' = if z =? 0 then MLast else MDone)
    by (unfold g', signed_off; simpl; rewrite Eam; reflexivity).
  assert (Hnr : forall i, ~ rd g' i) by (intros i []).
  assert (Hcase : md g' = MLast \/ md g' = MDone) by (rewrite Emd; destruct (z =? 0); auto).
  exists ((rd g, a_P a) :: deps). constructor; simpl; auto.
  - constructor.
    + split; [intros i []|]. split; [intros i []|]. split; [intros i []|]. split; [exact E|].
      unfold wf_md. destruct Hcase as [-> | ->]; exact Hnr.
    + exact Hwp.
  - constructor; auto. unfold pool_ok. destruct Hcase as [-> | ->]; exact I.
  - constructor; auto. unfold vs_main. destruct Hcase as [-> | ->]; intros i _ Hi; apply (Hnr i Hi).
  - split; auto. apply Forall_forall. intros h _ i Hi _. apply (Hnr i Hi).
  - constructor.
    + split; [exact B|]. split; [|split].
      * simpl. intros w Hw. apply HP. intros i Hi. rewrite Hw by auto. apply C; auto.
      * simpl. intros i Hi1 Hi2. apply (Hvg' i); auto.
      * constructor; [intros i _ Hi; apply (Hnr i Hi)|]. simpl. exact Hpg.
    + eapply Forall_impl; [|exact H7]. intros d (A1 & A2 & A3 & A4). repeat split; auto.
      inversion A4; subst. constructor; auto. intros i _ Hi; apply (Hnr i Hi).
  - assert (HCm' : forall Pf, common Pf gm (g :: pool) deps s ->
       common Pf gm (g' :: pool) ((rd g, a_P a) :: deps) (Sh (mem s) z (maxg s) (chans s))).
    { intros Pf1 (D1 & D2 & D3 & D4 & D5). unfold common. cbn [ngor chans mem maxg].
      assert (K1 : cnt g' = 0) by (unfold cnt; destruct Hcase as [-> | ->]; reflexivity).
      assert (K2 : wt g' = 0) by (unfold wt; destruct Hcase as [-> | ->]; reflexivity).
      rewrite !sumf_cons in *. rewrite K1, K2.
      repeat split; auto; try lia; try (intro Hfr; specialize (D2 Hfr); assert (K3 := wt_nonneg g); lia).
      intros w Hw0 Hwp' Hw2. inversion Hw2; subst. inversion Hwp'; subst. apply D5; auto.
      constructor; auto. unfold prom. rewrite Em. auto. }
    unfold phase in *. cbn [ngor chans mem maxg].
    assert (Kp : part1 g' = 0) by (unfold part1; destruct Hcase as [-> | ->]; reflexivity).
    assert (Kp' : part1 g = 0) by (unfold part1; rewrite Em; reflexivity).
    assert (Kl' : last1 g = 0) by (unfold last1; rewrite Em; reflexivity).
    assert (Kl : last1 g' = if z =? 0 then 1 else 0)
      by (unfold last1; rewrite Emd; destruct (z =? 0); reflexivity).
    rewrite !sumf_cons in *. rewrite Kp, Kl. rewrite Kp', Kl' in H8.
    destruct (md gm) eqn:Egm; try contradiction.
    + destruct H8 as [H8 _]; discriminate.
    + destruct H8 as [H8 _]; discriminate.
    + destruct (a_main a0); [|contradiction]. destruct H8 as (DD & D6 & D7).
      split; [apply HCm'; exact DD|]. split; [lia|].
      assert (1 <= cnt gm) by (unfold cnt; rewrite Egm; destruct (a_credit a0); lia).
      destruct (Z.eqb_spec z 0); lia.
    + destruct H8 as (DD & D6 & D7). split; [apply HCm'; exact DD|]. split; [lia|].
      assert (ngor s <> 0) by lia.
      destruct (Z.eqb_spec (ngor s) 0); [contradiction|]. lia.
    + destruct H8 as (DD & _). inversion DD; subst. congruence.
Qed.

Lemma GG_fork_part gm a pool deps s (dj d2 r2 : cells) post :
  GG gm pool deps s -> md gm = MAct a -> a_credit a = false -> a_tok a = true -> a_join a = None ->
  (forall i, dj i -> dom gm i) -> (forall i, d2 i -> r2 i) -> (forall i, r2 i -> dj i) ->
  twice (dom gm) -> (forall i, dj i \/ ~ dj i) ->
  GG (Gst (minus (dom gm) dj) (minus (rd gm) d2) (val gm)
          (MAct (setjoin a (Some (Join dj post)))) (seen gm))
     (Gst d2 r2 (val gm) (MPart (Join dj post)) 0 :: pool) deps s.
Proof.
  intros [H1 H2 H3 H4 H5 H6 H7 H8] Em Ec Et Ej Hdj Hd2 Hr2 Htw Hne.
  pose proof H2 as (A & B & C & E & F).
  assert (Hcl : forall i, claim (Gst (minus (dom gm) dj) (minus (rd gm) d2) (val gm)
          (MAct (setjoin a (Some (Join dj post)))) (seen gm)) i -> rd gm i).
  { intros i [[Hi _]|Hi]; auto. }
  assert (Hnp : Forall (fun g => disj (rd gm) (rd g)) pool).
  { eapply Forall_impl; [|exact H5]. intros g V. unfold vs_main in V.
    destruct (md g); try (intros i Hi1 Hi2; apply (V i); [left; auto|auto]; fail).
    destruct V as (V & _). unfold joined in V. rewrite Em in V. congruence. }
  unfold phase in H8. rewrite Em in H8. destruct (a_main a) as [Pf|] eqn:Eam; [|contradiction].
  rewrite Ej in H8. destruct H8 as ((C1 & C2 & C3 & C4 & C5) & C6 & C7).
  constructor; auto.
  - split; [simpl; intros i [Hi1 Hi2]; split; auto|]. split; [simpl; intros i [Hi _]; auto|].
    split; [intros i [Hi _]; apply C; auto|]. split; [exact E|].
    unfold wf_md. simpl. assert (Hown : forall i, dom gm i -> own (Gst (minus (dom gm) dj) (minus (rd gm) d2) (val gm)
        (MAct (setjoin a (Some (Join dj post)))) (seen gm)) i).
    { intros i Hi. unfold own. cbn. destruct (Hne i) as [Hj|Hj]; [right; exact Hj|left; split; assumption]. }
    split; [eapply atLeast_sub; [exact Hown|exact (many_dom _ _ F Em Ej)]|].
    split; [rewrite Ec; discriminate|]. intros j Ej'. inversion Ej'; subst. simpl. split; auto. split; auto.
    eapply atLeast_sub; [exact Hown|exact Htw].
  - constructor; auto. split; [simpl; auto|]. split; [simpl; auto|].
    split; [intros i Hi; apply C; auto|]. split; [simpl; lia|]. exact I.
  - constructor; auto. exact I.
  - constructor.
    + unfold vs_main. simpl. split; [reflexivity|]. split; [auto|]. split.
      * intros i [Hi1 Hi2] Hi3. auto.
      * intros i [Hi1 Hi2] Hi3. auto.
    + rewrite Forall_forall in *. intros g Hg. pose proof (Hnp g Hg) as V0. pose proof (H5 g Hg) as V.
      unfold vs_main in *.
      destruct (md g); try (intros i Hi1 Hi2; apply (V0 i); auto; fail).
      destruct V as (V & _). unfold joined in V. rewrite Em in V. congruence.
  - split; auto. eapply Forall_impl; [|exact Hnp]. intros g V i Hi1 Hi2. simpl in Hi1. apply (V i); auto.
  - eapply Forall_impl; [|exact H7]. intros d (A1 & A2 & A3 & A4). repeat split; auto.
    + intros i Hi1 Hi2. apply (A3 i); auto. left; auto.
    + constructor; auto. simpl. intros i Hi1 Hi2. apply (A3 i); auto. left; auto.
  - unfold phase. simpl. rewrite Eam. unfold common. rewrite !sumf_cons in *.
    unfold cnt at 1 2, wt at 1 2, part1 at 1, last1 at 1. unfold cnt at 1 in C1. unfold wt at 1 in C2.
    rewrite Em in C1, C2. simpl. rewrite Ec, Et in *.
    repeat split; auto; try lia; try (intro Hfr; specialize (C2 Hfr); lia).
    intros w Hw0 Hw1 Hw2. inversion Hw1; subst. apply C5; auto. unfold prom. rewrite Em. exact Hw0.
Qed.

Lemma GG_join gm g a j jp pool deps s v :
  GG gm (g :: pool) deps s -> md gm = MAct a -> a_join a = Some j -> md g = MPart jp ->
  (forall w, agrees g w -> j_post jp v w) ->
  agrees gm (mem s) /\ j_post j v (mem s) /\
  GG (Gst (union (dom gm) (j_D j)) (union (rd gm) (j_D j)) (mem s) (MAct (setjoin a None)) (seen gm))
     (noown g MDone :: pool) deps s.
Proof.
  intros [H1 H2 H3 H4 H5 H6 H7 H8] Em Ej Eg HP.
  inversion H3 as [|? ? Hwg Hwp]; subst. inversion H4 as [|? ? Hkg Hkp]; subst.
  inversion H5 as [|? ? Hvg Hvp]; subst. destruct H6 as [Hpg Hpp].
  pose proof H2 as (A & B & C & E & F). pose proof Hwg as (A' & B' & C' & E' & F').
  assert (jp = j) as ->.
  { unfold vs_main in Hvg. rewrite Eg in Hvg. destruct Hvg as (V & _). unfold joined in V.
    rewrite Em in V. congruence. }
  split; [exact C|]. split; [apply HP; exact C'|].
  unfold phase in H8. rewrite Em in H8. destruct (a_main a) as [Pf|] eqn:Eam; [|contradiction].
  rewrite Ej in H8. destruct H8 as ((C1 & C2 & C3 & C4 & C5) & C6 & C7).
  assert (Ecl : forall i, claim gm i <-> union (rd gm) (j_D j) i).
  { intro i. unfold claim, union, joined. rewrite Em, Ej. tauto. }
  assert (HD : forall i, j_D j i -> R0 i).
  { unfold wf_md in F. rewrite Em in F. destruct F as (_ & _ & F). apply (F j Ej). }
  assert (Hnr : forall i, ~ rd (noown g MDone) i) by (intros i []).
  constructor; auto.
  - split; [simpl; unfold union; intros i [Hi|Hi]; auto|].
    split; [simpl; unfold union; intros i [Hi|Hi]; auto|].
    split; [intros i Hi; reflexivity|]. split; [exact E|].
    unfold wf_md in *. rewrite Em in F. simpl. destruct F as (F1 & F2 & F3).
    split; [eapply atLeast_sub; [|exact F1]; intros i Hi; unfold own, joined in Hi; rewrite Em, Ej in Hi; left; exact Hi|].
    split; [intro Hc; destruct (F2 Hc) as (_ & _ & Hx); congruence|discriminate].
  - constructor; auto. split; [intros i []|]. split; [intros i []|]. split; [intros i []|].
    split; [exact E'|]. exact Hnr.
  - constructor; auto. exact I.
  - constructor; [intros i _ Hi; apply (Hnr i Hi)|].
    assert (Hno : sumf part1 pool = 0).
    { rewrite sumf_cons in C6. unfold part1 at 1 in C6. rewrite Eg in C6. lia. }
    pose proof (sumf_zero part1 pool part1_nonneg Hno) as Z2.
    rewrite Forall_forall in *. intros h Hh. pose proof (Hvp h Hh) as V. pose proof (Z2 h Hh) as K.
    unfold vs_main, part1 in *.
    destruct (md h); try discriminate; intros i Hi1 Hi2; apply (V i); auto; apply Ecl;
      destruct Hi1 as [Hi1|Hi1]; auto; contradiction.
  - split; auto. apply Forall_forall. intros h _ i Hi _. apply (Hnr i Hi).
  - eapply Forall_impl; [|exact H7]. intros d (A1 & A2 & A3 & A4). repeat split; auto.
    + intros i Hi1 Hi2. apply (A3 i); auto. apply Ecl. destruct Hi2 as [Hi2|Hi2]; [exact Hi2|contradiction].
    + inversion A4; subst. constructor; auto. intros i _ Hi; apply (Hnr i Hi).
  - unfold phase. simpl. rewrite Eam. unfold common. rewrite !sumf_cons in *.
    unfold cnt at 1 2, wt at 1 2, part1 at 1, last1 at 1. unfold cnt at 1 2 in C1. unfold wt at 1 2 in C2.
    unfold part1 at 1 in C6. unfold last1 at 1 in C7.
    rewrite Em in C1, C2. rewrite Eg in C1, C2, C6, C7. simpl.
    repeat split; auto; try lia; try (intro Hfr; specialize (C2 Hfr); lia).
    intros w Hw0 Hw1 Hw2. inversion Hw1; subst. apply C5; auto.
    + unfold prom. rewrite Em. exact Hw0.
    + constructor; auto. unfold prom. rewrite Eg. exact I.
Qed.

Lemma GG_finish gm g Pf pool deps s :
  GG gm (g :: pool) deps s -> md gm = MWait Pf -> md g = MLast ->
  GG (setmd gm (MFinal Pf)) (noown g MDone :: pool) [] s.
Proof.
  intros [H1 H2 H3 H4 H5 H6 H7 H8] Em Eg.
  inversion H3 as [|? ? Hwg Hwp]; subst. inversion H4 as [|? ? Hkg Hkp]; subst.
  inversion H5 as [|? ? Hvg Hvp]; subst. destruct H6 as [Hpg Hpp].
  pose proof H2 as (A & B & C & E & F). pose proof Hwg as (A' & B' & C' & E' & F').
  unfold wf_md in F. rewrite Em in F.
  unfold phase in H8. rewrite Em in H8. destruct H8 as ((C1 & C2 & C3 & C4 & C5) & C6 & C7).
  assert (Hnr : forall i, ~ rd (noown g MDone) i) by (intros i []).
  pose proof (sumf_nonneg last1 pool last1_nonneg) as Hl0.
  assert (Hn0 : ngor s = 0 /\ sumf last1 pool = 0).
  { rewrite sumf_cons in C7. unfold last1 at 1 in C7. rewrite Eg in C7.
    destruct (Z.eqb_spec (ngor s) 0); lia. }
  destruct Hn0 as [Hn0 Hl1].
  assert (Hz0 : Forall (fun h => md h = MDone) pool).
  { rewrite !sumf_cons in C1. rewrite sumf_cons in C6.
    pose proof (cnt_nonneg gm). pose proof (cnt_nonneg g). pose proof (part1_nonneg g).
    pose proof (sumf_nonneg cnt pool cnt_nonneg). pose proof (sumf_nonneg part1 pool part1_nonneg).
    pose proof (sumf_zero cnt pool cnt_nonneg ltac:(lia)) as Z1.
    pose proof (sumf_zero part1 pool part1_nonneg ltac:(lia)) as Z2.
    pose proof (sumf_zero last1 pool last1_nonneg Hl1) as Z3.
    rewrite Forall_forall in *. intros h Hh. pose proof (Hkp h Hh) as K. pose proof (Z1 h Hh) as K1.
    pose proof (Z2 h Hh) as K2. pose proof (Z3 h Hh) as K3.
    unfold pool_ok, cnt, part1, last1 in *. destruct (md h); try contradiction; try discriminate; auto.
    destruct (a_credit a); discriminate. }
  constructor; auto.
  - split; [exact A|]. split; [exact B|]. split; [exact C|]. split; [exact E|]. exact F.
  - constructor; auto. split; [intros i []|]. split; [intros i []|]. split; [intros i []|].
    split; [exact E'|]. exact Hnr.
  - constructor; auto. exact I.
  - constructor; [intros i _ Hi; apply (Hnr i Hi)|].
    rewrite Forall_forall in *. intros h Hh. unfold vs_main. rewrite (Hz0 h Hh).
    intros i Hi1 Hi2. destruct Hi1 as [Hi1|Hi1]; [apply (F i Hi1)|contradiction].
  - split; auto. apply Forall_forall. intros h _ i Hi _. apply (Hnr i Hi).
  - unfold phase. simpl. split; [constructor; auto|]. split; [exact C4|].
    intros w Hw. apply C5.
    + unfold prom. rewrite Em. exact I.
    + constructor; [unfold prom; rewrite Eg; exact I|]. rewrite Forall_forall in *. intros h Hh.
      unfold prom. rewrite (Hz0 h Hh). exact I.
    + rewrite Forall_forall in *. intros d Hd. destruct (H7 d Hd) as (A1 & A2 & _). apply A2.
      intros i Hi. apply Hw. auto.
Qed.

End Sound.

Arguments gg_maxg {Gr T Fr} M R0 gm pool deps s _.
Arguments gg_wfm {Gr T Fr} M R0 gm pool deps s _.
Arguments gg_wf {Gr T Fr} M R0 gm pool deps s _.
Arguments gg_pool {Gr T Fr} M R0 gm pool deps s _.
Arguments gg_vsm {Gr T Fr} M R0 gm pool deps s _.
Arguments gg_vs {Gr T Fr} M R0 gm pool deps s _.
Arguments gg_deps {Gr T Fr} M R0 gm pool deps s _.
Arguments gg_phase {Gr T Fr} M R0 gm pool deps s _.
