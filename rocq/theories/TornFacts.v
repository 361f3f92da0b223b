(** * Elements accessed in parts: the call does the same *)

From Coq Require Import List ZArith Lia Bool Arith.
From Verif Require Import Lang Torn.
Import ListNotations.
Open Scope Z_scope.

Lemma local_keeps {P T A} (body : P -> cmd P T unit) (c : cmd P T A) m n mg ch c' s' fs m2 :
  access c = None -> exec_local body c (Sh m n mg ch) = Some (c', s', fs) ->
  mem s' = m /\ maxg s' = mg /\ exec_local body c (Sh m2 n mg ch) = Some (c', Sh m2 (ngor s') mg (chans s'), fs).
Proof.
  unfold access, exec_local. destruct (view c); cbn [mem ngor maxg chans]; intros Ha H; try discriminate; injection H as <- <- <-; auto.
Qed.

Lemma local_forks {P T A} (body : P -> cmd P T unit) (c : cmd P T A) s c' s' fs :
  exec_local body c s = Some (c', s', fs) -> (length fs <= 1)%nat.
Proof. unfold exec_local. destruct (view c); intro H; try discriminate; injection H as <- <- <-; simpl; lia. Qed.

Lemma step_threads {P T R} (body : P -> cmd P T unit) (s s' : st P T R) :
  pstep body s s' -> (length (thr s') <= S (length (thr s)))%nat.
Proof.
  destruct 1 as [s s' H| |]; [destruct H| |]; cbn [thr]; rewrite ?app_length; simpl; rewrite ?app_length; simpl; try lia;
    match goal with H : exec_local _ _ _ = Some _ |- _ => assert (L := local_forks _ _ _ _ _ _ H) end; lia.
Qed.

Lemma exec_threads {P T R} (body : P -> cmd P T unit) M Rg k (s s' : st P T R) :
  exec body M Rg k s s' -> (length (thr s') <= k + length (thr s))%nat.
Proof.
  induction 1 as [s|k s s1 s2 H IH Hs|k s s1 s2 H IH Hs]; [lia| |].
  - assert (L := step_threads _ _ _ Hs). lia.
  - destruct Hs. exact IH.
Qed.

Section TornFacts.
Context {P T R V : Type}.
Variable np : nat.
Variable part : T -> nat -> V.
Variable join : (nat -> V) -> T.
Variable body : P -> cmd P T unit.
Variables (M : Z) (Rg : Z -> Prop) (good : T -> Prop).

Notation tst := (@tst P T R V).
Notation pend := (@pend V).

Hypothesis Hjoin : forall v f, good v -> (forall q, (q < np)%nat -> f q = part v q) -> join f = v.

(** ** The state with whole elements *)

Definition erase (s : tst) (m : Z -> T) : st P T R :=
  St (fst (tmain s)) (map fst (tthr s)) (Sh m (tgor s) (tmax s) (tchans s)).

(** The access a goroutine is in, with the value if it writes. *)
Definition act {A} (c : cmd P T A) : option (Z * option T) :=
  match view c with HRead x _ => Some (x, None) | HWrite x v _ => Some (x, Some v) | _ => None end.

Definition gor := (option (Z * option T) * pend)%type.
Definition gact {A} (g : cmd P T A * pend) : gor := (act (fst g), snd g).
Definition gors (s : tst) : list gor := gact (tmain s) :: map gact (tthr s).

(** What a goroutine has read are parts of the element; what it has written is in memory. *)
Definition gok (F : Z -> nat -> V) (m : Z -> T) (g : gor) : Prop :=
  forall q u, snd g q = Some u -> (q < np)%nat /\
    match fst g with
    | None => False
    | Some (x, None) => u = part (m x) q
    | Some (x, Some v) => u = part v q /\ F x q = u
    end.

Definition ginv (F : Z -> nat -> V) (m : Z -> T) (l : list gor) : Prop :=
  (forall g, In g l -> gok F m g) /\
  (forall x q, Rg x -> (q < np)%nat -> F x q = part (m x) q \/
     exists v p, In (Some (x, Some v), p) l /\ p q <> None).

Lemma gok_idle F m a : gok F m (a, idle).
Proof. intros q u H. discriminate. Qed.

Lemma ginv_sub F m l l' : ginv F m l ->
  (forall g, In g l' -> In g l \/ snd g = idle) -> (forall g, In g l -> In g l' \/ fst g = None) -> ginv F m l'.
Proof.
  intros [H1 H2] S1 S2. split.
  - intros [a p] Hg. destruct (S1 _ Hg) as [H|H]; [apply H1, H|]. cbn in H. subst p. apply gok_idle.
  - intros x q Hx Hq. destruct (H2 x q Hx Hq) as [E|(v & p & Hi & Hp)]; [left; exact E|right].
    destruct (S2 _ Hi) as [H|H]; [exists v, p; auto|discriminate].
Qed.

(** Two accesses that do not conflict. *)
Definition apart (g g' : gor) : Prop :=
  match fst g, fst g' with
  | Some (x, w), Some (x', w') => x = x' -> w = None /\ w' = None
  | _, _ => True
  end.

Definition count (p : pend) : nat := length (filter (fun q => match p q with Some _ => true | None => false end) (seq 0 np)).

Lemma count_le p : (count p <= np)%nat.
Proof.
  unfold count. rewrite <- (seq_length np 0) at 2. generalize (seq 0 np). intro l.
  induction l as [|q l IH]; simpl; [lia|]. destruct (p q); simpl; lia.
Qed.

Lemma count_ext p p' : (forall q, p q <> None <-> p' q <> None) -> count p = count p'.
Proof.
  intro H. unfold count. f_equal. apply filter_ext. intro q. specialize (H q).
  destruct (p q), (p' q); try reflexivity; exfalso; [apply (proj1 H)|apply (proj2 H)]; congruence.
Qed.

Lemma count_none p : (forall q, p q = None) -> count p = 0%nat.
Proof.
  intro H. unfold count. induction (seq 0 np) as [|q l IH]; [reflexivity|]. cbn [filter]. rewrite H. exact IH.
Qed.

Lemma count_idle : count idle = 0%nat.
Proof. apply count_none. reflexivity. Qed.

Lemma count_full p : (forall q, (q < np)%nat -> p q <> None) -> count p = np.
Proof.
  intro H. unfold count. rewrite <- (seq_length np 0) at 2.
  assert (L : forall q, In q (seq 0 np) -> p q <> None) by (intros q Hq; apply H; apply in_seq in Hq; lia).
  induction (seq 0 np) as [|q l IH]; [reflexivity|]. cbn [filter].
  destruct (p q) eqn:E; [|exfalso; exact (L q (or_introl eq_refl) E)]. simpl. f_equal. apply IH. intros q' Hq. apply L. right. exact Hq.
Qed.

Lemma count_pset p q u : (q < np)%nat -> p q = None -> count (pset p q u) = S (count p).
Proof.
  intros Hq Hp. unfold count.
  assert (D : NoDup (seq 0 np)) by apply seq_NoDup. assert (I : In q (seq 0 np)) by (apply in_seq; lia).
  assert (X : forall l, ~ In q l -> filter (fun q' => match pset p q u q' with Some _ => true | None => false end) l =
    filter (fun q' => match p q' with Some _ => true | None => false end) l).
  { intros l Hl. apply filter_ext_in. intros q' Hq'. unfold pset. destruct (Nat.eqb_spec q' q); [subst; tauto|reflexivity]. }
  revert D I. induction (seq 0 np) as [|q' l IH]; [intros _ []|]. intros D [E|I].
  - subst q'. inversion D; subst. cbn [filter]. unfold pset at 1. rewrite Nat.eqb_refl, Hp. cbn [length]. f_equal. f_equal. apply X. assumption.
  - inversion D as [|? ? N D']; subst. cbn [filter]. unfold pset at 1. destruct (Nat.eqb_spec q' q); [subst; tauto|].
    destruct (p q'); cbn [length]; rewrite (IH D' I); reflexivity.
Qed.

(** One step of one goroutine, of which [rest] are the others. *)
Lemma tlocal_sim {A} mg (c : cmd P T A) p F n ch c' p' F' n' ch' fs m (rest : list gor) :
  tlocal np part join body mg c p F n ch c' p' F' n' ch' fs ->
  ginv F m ((act c, p) :: rest) -> (forall g, In g rest -> apart (act c, p) g) ->
  (forall x w, access c = Some (x, w) -> Rg x) -> (forall x, Rg x -> good (m x)) ->
  exists m', ginv F' m' ((act c', p') :: rest) /\
    ((c' = c /\ n' = n /\ ch' = ch /\ fs = [] /\ m' = m /\ count p' = S (count p)) \/
     (exec_local body c (Sh m n mg ch) = Some (c', Sh m' n' mg ch', fs) /\ p' = idle /\ (count p <= np)%nat)).
Proof.
  intros H [G1 G2] Hap Hrg Hgood.
  assert (Gc := G1 _ (or_introl eq_refl)). unfold gok in Gc. cbn [fst snd] in Gc.
  destruct H as [c p F n ch x k q Hv Hq Hp|c p F n ch x k f Hv Hall|c p F n ch x v k q Hv Hq Hp|c p F n ch x v k Hv Hall|c p F n ch m1 c' n' ch' fs Ha Hx].
  - (* a part is read *)
    assert (Hx : Rg x) by (apply (Hrg x false); unfold access; rewrite Hv; reflexivity).
    assert (Ea : act c = Some (x, None)) by (unfold act; rewrite Hv; reflexivity). rewrite Ea in *.
    exists m. split; [|left; repeat split; auto; apply count_pset; assumption]. split.
    + intros g [<-|Hg]; [|apply G1; right; exact Hg]. intros q' u. cbn [fst snd]. unfold pset.
      destruct (Nat.eqb_spec q' q) as [->|N]; [|apply Gc]. intro E. injection E as <-. split; [exact Hq|].
      destruct (G2 x q Hx Hq) as [E|(v & p1 & Hi & _)]; [exact E|exfalso].
      destruct Hi as [E|Hi]; [discriminate|]. destruct (Hap _ Hi eq_refl). discriminate.
    + intros y q' Hy Hq'. destruct (G2 y q' Hy Hq') as [E|(v & p1 & Hi & Hp1)]; [left; exact E|right].
      exists v, p1. split; [|exact Hp1]. destruct Hi as [E|Hi]; [discriminate|right; exact Hi].
  - (* the read is complete *)
    assert (Hx : Rg x) by (apply (Hrg x false); unfold access; rewrite Hv; reflexivity).
    assert (Ea : act c = Some (x, None)) by (unfold act; rewrite Hv; reflexivity). rewrite Ea in *.
    assert (Ej : join f = m x).
    { apply Hjoin; [apply Hgood, Hx|]. intros q Hq. exact (proj2 (Gc q (f q) (Hall q Hq))). }
    exists m. split; [|right; split; [unfold exec_local; rewrite Hv; cbn [mem]; rewrite Ej; reflexivity|split; [reflexivity|apply count_le]]].
    split.
    + intros g [<-|Hg]; [apply gok_idle|apply G1; right; exact Hg].
    + intros y q' Hy Hq'. destruct (G2 y q' Hy Hq') as [E|(v & p1 & Hi & Hp1)]; [left; exact E|right].
      exists v, p1. split; [|exact Hp1]. destruct Hi as [E|Hi]; [discriminate|right; exact Hi].
  - (* a part is written *)
    assert (Hx : Rg x) by (apply (Hrg x true); unfold access; rewrite Hv; reflexivity).
    assert (Ea : act c = Some (x, Some v)) by (unfold act; rewrite Hv; reflexivity). rewrite Ea in *.
    exists m. split; [|left; repeat split; auto; apply count_pset; assumption]. split.
    + intros g [<-|Hg].
      * intros q' u. cbn [fst snd]. unfold pset, mset. rewrite Z.eqb_refl. cbn [andb].
        destruct (Nat.eqb_spec q' q) as [->|N]; [|apply Gc]. intro E. injection E as <-. auto.
      * intros q' u E. destruct (G1 g (or_intror Hg) q' u E) as [L B]. split; [exact L|].
        assert (D := Hap g Hg). unfold apart in D. cbn [fst] in D. destruct (fst g) as [[y [w|]]|]; auto.
        unfold mset. destruct (Z.eqb_spec q' q) as [e|N] || destruct (Z.eqb_spec y x) as [e|N]; [|exact B].
        destruct (D (eq_sym e)). discriminate.
    + intros y q' Hy Hq'. unfold mset. destruct (Z.eqb_spec y x) as [->|N]; cbn [andb].
      * destruct (Nat.eqb_spec q' q) as [->|N'].
        -- right. exists v, (pset p q (part v q)). split; [left; reflexivity|]. unfold pset. rewrite Nat.eqb_refl. discriminate.
        -- destruct (G2 x q' Hy Hq') as [E|(v' & p1 & Hi & Hp1)]; [left; exact E|right].
           destruct Hi as [E|Hi].
           ++ injection E as <- <-. exists v, (pset p q (part v q)). split; [left; reflexivity|]. unfold pset.
              destruct (Nat.eqb_spec q' q); [discriminate|exact Hp1].
           ++ exists v', p1. split; [right; exact Hi|exact Hp1].
      * destruct (G2 y q' Hy Hq') as [E|(v' & p1 & Hi & Hp1)]; [left; exact E|right].
        exists v', p1. split; [|exact Hp1]. destruct Hi as [E|Hi]; [injection E as ? ? ?; congruence|right; exact Hi].
  - (* the write is complete *)
    assert (Hx : Rg x) by (apply (Hrg x true); unfold access; rewrite Hv; reflexivity).
    assert (Ea : act c = Some (x, Some v)) by (unfold act; rewrite Hv; reflexivity). rewrite Ea in *.
    exists (upd m x v). split; [|right; split; [unfold exec_local; rewrite Hv; reflexivity|split; [reflexivity|apply count_le]]].
    split.
    + intros g [<-|Hg]; [apply gok_idle|].
      intros q' u E. destruct (G1 g (or_intror Hg) q' u E) as [L B]. split; [exact L|].
      assert (D := Hap g Hg). unfold apart in D. cbn [fst] in D. destruct (fst g) as [[y [w|]]|]; auto.
      unfold upd. destruct (Z.eqb_spec y x) as [e|N]; [|exact B]. destruct (D (eq_sym e)). discriminate.
    + intros y q' Hy Hq'. unfold upd. destruct (Z.eqb_spec y x) as [->|N].
      * left. specialize (Hall q' Hq'). destruct (p q') as [u|] eqn:E; [|tauto]. destruct (Gc q' u E) as (_ & <- & B). exact B.
      * destruct (G2 y q' Hy Hq') as [E|(v' & p1 & Hi & Hp1)]; [left; exact E|right].
        exists v', p1. split; [|exact Hp1]. destruct Hi as [E|Hi]; [injection E as ? ? ?; congruence|right; exact Hi].
  - (* anything else *)
    destruct (local_keeps body c m1 n mg ch c' _ fs m Ha Hx) as (_ & _ & Hx'). cbn [ngor chans] in Hx'.
    assert (Ea : act c = None) by (unfold act; unfold access in Ha; destruct (view c); try reflexivity; discriminate).
    exists m. split; [|right; split; [exact Hx'|split; [reflexivity|apply count_le]]].
    eapply ginv_sub; [split; [exact G1|exact G2]| |].
    + intros g [<-|Hg]; [right; reflexivity|left; right; exact Hg].
    + intros g [<-|Hg]; [right; exact Ea|left; right; exact Hg].
Qed.

(** ** Executions *)

(** What is known of the executions with whole elements. *)
Variable s0 : st P T R.
Hypothesis Hrace : forall k s, exec body M Rg k s0 s -> ~ race s.
Hypothesis Hbound : forall k s x w, exec body M Rg k s0 s -> In (Some (x, w)) (accesses s) -> Rg x.
Hypothesis Hgood : forall k s x, exec body M Rg k s0 s -> Rg x -> good (mem (sh s) x).

Definition pending (s : tst) : nat := fold_right (fun (g : gor) a => (count (snd g) + a)%nat) 0%nat (gors s).

Definition related (k : nat) (s : tst) (m : Z -> T) : Prop := exec body M Rg k s0 (erase s m) /\ ginv (tmem s) m (gors s).

Lemma gact_access {A} (c : cmd P T A) x w : act c = Some (x, w) -> access c = Some (x, match w with Some _ => true | None => false end).
Proof. unfold act, access. destruct (view c); intro H; try discriminate; injection H as <- <-; reflexivity. Qed.

Lemma gors_accesses s m : map (fun g : gor => match fst g with Some (x, w) => Some (x, match w with Some _ => true | None => false end) | None => None end) (gors s)
  = accesses (erase s m).
Proof.
  assert (E : forall A (c : cmd P T A), match act c with Some (x, w) => Some (x, match w with Some _ => true | None => false end) | None => None end = access c).
  { intros A c. unfold act, access. destruct (view c); reflexivity. }
  unfold gors, accesses. cbn [map erase main thr]. f_equal; [apply E|]. rewrite !map_map. apply map_ext. intros [c p]. apply E.
Qed.

Lemma race_apart s m l1 g l2 : ~ race (erase s m) -> gors s = l1 ++ g :: l2 -> forall g', In g' (l1 ++ l2) -> apart g g'.
Proof.
  intros Hr E g' Hg. assert (Ea := gors_accesses s m). rewrite E in Ea.
  unfold apart. destruct g as [[[x w]|] p], g' as [[[x' w']|] p']; cbn [fst]; auto. intros <-.
  assert (Hx : exists j, j <> length l1 /\ nth_error (l1 ++ (Some (x, w), p) :: l2) j = Some (Some (x, w'), p')).
  { apply in_app_or in Hg. destruct Hg as [Hg|Hg]; apply In_nth_error in Hg; destruct Hg as [j Hj].
    - assert (L : (j < length l1)%nat) by (apply nth_error_Some; congruence). exists j. split; [lia|]. rewrite nth_error_app1 by lia. exact Hj.
    - exists (length l1 + S j)%nat. split; [lia|]. rewrite nth_error_app2 by lia. replace (length l1 + S j - length l1)%nat with (S j) by lia. exact Hj. }
  destruct Hx as (j & Hj & Ej).
  destruct (match w with Some _ => true | None => false end || match w' with Some _ => true | None => false end) eqn:Ew.
  - exfalso. apply Hr. exists (length l1), j, x, (match w with Some _ => true | None => false end), (match w' with Some _ => true | None => false end).
    split; [lia|]. rewrite <- Ea. split; [rewrite nth_error_map, nth_error_app2, Nat.sub_diag by lia; reflexivity|].
    split; [rewrite nth_error_map; unfold gor in *; rewrite Ej; reflexivity|].
    apply orb_true_iff in Ew. exact Ew.
  - destruct w, w'; try discriminate. auto.
Qed.

Lemma in_bound s m k g x w : exec body M Rg k s0 (erase s m) -> In g (gors s) -> fst g = Some (x, w) -> Rg x.
Proof.
  intros H Hg E. apply (Hbound k _ x (match w with Some _ => true | None => false end) H). rewrite <- (gors_accesses s m).
  apply in_map_iff. exists g. rewrite E. auto.
Qed.

Lemma bound_access {A} (c : cmd P T A) p s m k : exec body M Rg k s0 (erase s m) -> In (act c, p) (gors s) ->
  forall x w, access c = Some (x, w) -> Rg x.
Proof.
  intros H Hg x w E. unfold access in E. destruct (view c) eqn:Ev; try discriminate; injection E as <- <-;
    eapply (in_bound s m k (act c, p)); eauto; cbn [fst]; unfold act; rewrite Ev; reflexivity.
Qed.

Lemma pending_app (l1 l2 : list gor) : fold_right (fun (g : gor) a => (count (snd g) + a)%nat) 0%nat (l1 ++ l2) =
  (fold_right (fun (g : gor) a => (count (snd g) + a)%nat) 0%nat l1 + fold_right (fun (g : gor) a => (count (snd g) + a)%nat) 0%nat l2)%nat.
Proof. induction l1 as [|g l1 IH]; simpl; [reflexivity|]. rewrite IH. lia. Qed.

Lemma pending_new (fs : list (cmd P T unit)) : fold_right (fun (g : gor) a => (count (snd g) + a)%nat) 0%nat (map gact (map (fun d => (d, idle)) fs)) = 0%nat.
Proof. induction fs as [|d fs IH]; simpl; [reflexivity|]. rewrite count_idle, IH. reflexivity. Qed.

Lemma new_idle g (fs : list (cmd P T unit)) : In g (map gact (map (fun d => (d, idle)) fs)) -> snd g = idle.
Proof. intro H. rewrite map_map in H. apply in_map_iff in H. destruct H as (d & <- & _). reflexivity. Qed.

Lemma erase_new (fs : list (cmd P T unit)) : map fst (map (fun d => (d, @idle V)) fs) = fs.
Proof. rewrite map_map. cbn. apply map_id. Qed.

(** One step, in the worlds of parts and of whole elements. *)
Definition simulated (s s' : tst) (m m' : Z -> T) : Prop :=
  ginv (tmem s') m' (gors s') /\
  ((erase s' m' = erase s m /\ pending s' = S (pending s)) \/
   (pstep body (erase s m) (erase s' m') /\ (pending s <= pending s' + np)%nat)).

Lemma none_count F m a (p : pend) : gok F m (a, p) -> a = None -> count p = 0%nat.
Proof.
  intros H ->. apply count_none. intro q. destruct (p q) as [u|] eqn:E; [|reflexivity]. destruct (H q u E) as [_ []].
Qed.

Lemma tstep_sim k s s' m : related k s m -> tstep np part join body s s' -> exists m', simulated s s' m m'.
Proof.
  intros [He Hi] Hs. assert (Hr := Hrace _ _ He). assert (Hg := fun x => Hgood _ _ x He). cbn [erase sh mem] in Hg.
  destruct Hs as [c p ts F n mg ch c' p' F' n' ch' fs Hl|g0 l1 c p l2 F n mg ch c' p' F' n' ch' fs Hl
    |c0 p0 l1 c p l2 F n mg ch v kk k' Hc Hm|c0 p0 l1 c p l2 F n mg ch v kk k' Hm Hc
    |g0 l1 c1 p1 l2 c2 p2 l3 F n mg ch v kk k' H1 H2|g0 l1 c1 p1 l2 c2 p2 l3 F n mg ch v kk k' H1 H2
    |c0 p0 ts F n mg ch kk z Hv|g0 l1 c p l2 F n mg ch kk z Hv].
  - unfold gors in Hi; cbn [tmain tthr tmem] in Hi.
    destruct (tlocal_sim mg c p F n ch c' p' F' n' ch' fs m (map gact ts) Hl Hi) as (m' & Hi' & Hd).
    + apply (race_apart _ m [] _ _ Hr). reflexivity.
    + eapply (bound_access c p _ m); [exact He|]. left. reflexivity.
    + exact Hg.
    + exists m'. split.
      * eapply ginv_sub; [exact Hi'| |]; unfold gors; cbn [tmain tthr]; rewrite map_app.
        -- intros g [<-|H]; [left; left; reflexivity|]. apply in_app_or in H. destruct H as [H|H]; [left; right; exact H|right; eapply new_idle, H].
        -- intros g [<-|H]; left; [left; reflexivity|right; apply in_or_app; left; exact H].
      * destruct Hd as [(-> & -> & -> & -> & -> & Ec)|(Hx & -> & Hc)].
        -- left. cbn [map]. rewrite app_nil_r. split; [reflexivity|]. unfold pending, gors. cbn [tmain tthr fold_right gact snd]. rewrite Ec. lia.
        -- right. split.
           ++ apply step_now. unfold erase. cbn [tmain tthr tgor tmax tchans fst]. rewrite map_app, erase_new. apply step_main. exact Hx.
           ++ unfold pending, gors. cbn [tmain tthr fold_right gact snd]. rewrite map_app, pending_app, pending_new, count_idle. lia.
  - assert (Hi2 : ginv F m ((act c, p) :: (gact g0 :: map gact l1 ++ map gact l2))).
    { eapply ginv_sub; [exact Hi| |]; unfold gors; cbn [tmain tthr]; rewrite map_app; cbn [map]; intros g H; left; cbn [In] in *; rewrite in_app_iff in *; cbn [In] in *; unfold gact at 1 in H || unfold gact at 2; cbn [fst snd] in *; tauto. }
    destruct (tlocal_sim mg c p F n ch c' p' F' n' ch' fs m _ Hl Hi2) as (m' & Hi' & Hd).
    + apply (race_apart _ m (gact g0 :: map gact l1) _ (map gact l2) Hr). unfold gors; cbn [tmain tthr]. rewrite map_app. reflexivity.
    + eapply (bound_access c p _ m); [exact He|]. right. cbn [tthr]. rewrite map_app. apply in_or_app. right. left. reflexivity.
    + exact Hg.
    + exists m'. split.
      * eapply ginv_sub; [exact Hi'| |]; unfold gors; cbn [tmain tthr]; rewrite map_app; cbn [map]; rewrite map_app; cbn [tmem].
        -- intros g [<-|H]; [left; right; left; reflexivity|]. apply in_app_or in H. destruct H as [H|[<-|H]]; [left; right; right; apply in_or_app; left; exact H|left; left; reflexivity|].
           apply in_app_or in H. destruct H as [H|H]; [left; right; right; apply in_or_app; right; exact H|right; eapply new_idle, H].
        -- intros g [<-|[<-|H]]; left; [right; apply in_or_app; right; left; reflexivity|left; reflexivity|right].
           apply in_app_or in H. apply in_or_app. destruct H as [H|H]; [left; exact H|right; right; apply in_or_app; left; exact H].
      * destruct Hd as [(-> & -> & -> & -> & -> & Ec)|(Hx & -> & Hc)].
        -- left. cbn [map]. rewrite app_nil_r. split; [unfold erase; cbn [tmain tthr tgor tmax tchans]; rewrite !map_app; reflexivity|].
           unfold pending, gors. cbn [tmain tthr fold_right gact snd]. rewrite !map_app, !pending_app. cbn [map fold_right gact snd]. rewrite Ec. lia.
        -- right. split.
           ++ apply step_now. unfold erase. cbn [tmain tthr tgor tmax tchans fst]. rewrite !map_app. cbn [map fst]. rewrite map_app, erase_new. apply step_thr. exact Hx.
           ++ unfold pending, gors. cbn [tmain tthr fold_right gact snd]. rewrite !map_app, !pending_app. cbn [map fold_right gact snd]. rewrite map_app, pending_app, pending_new, count_idle. lia.
  - assert (A1 : act c = None) by (unfold act; rewrite Hc; reflexivity). assert (A2 : act c0 = None) by (unfold act; rewrite Hm; reflexivity).
    exists m. split.
    + eapply ginv_sub; [exact Hi| |]; unfold gors; cbn [tmain tthr]; rewrite !map_app; cbn [map]; intros g H; destruct H as [<-|H]; cbn [gact fst snd]; auto;
        apply in_app_or in H; destruct H as [H|[<-|H]]; cbn [gact fst snd]; auto; left; right; apply in_or_app; cbn [In]; auto.
    + right. split.
      * unfold erase. cbn [tmain tthr tgor tmax tchans fst]. rewrite !map_app. cbn [map fst]. apply step_now. eapply step_to_main; eassumption.
      * destruct Hi as [G _]. unfold pending, gors. cbn [tmain tthr fold_right gact snd]. rewrite !map_app, !pending_app. cbn [map fold_right gact snd].
        rewrite (none_count F m (act c0) p0), (none_count F m (act c) p), count_idle; auto; [lia|apply G|apply G]; [right; cbn [tthr]; rewrite map_app; apply in_or_app; right; left; reflexivity|left; reflexivity].
  - assert (A1 : act c = None) by (unfold act; rewrite Hc; reflexivity). assert (A2 : act c0 = None) by (unfold act; rewrite Hm; reflexivity).
    exists m. split.
    + eapply ginv_sub; [exact Hi| |]; unfold gors; cbn [tmain tthr]; rewrite !map_app; cbn [map]; intros g H; destruct H as [<-|H]; cbn [gact fst snd]; auto;
        apply in_app_or in H; destruct H as [H|[<-|H]]; cbn [gact fst snd]; auto; left; right; apply in_or_app; cbn [In]; auto.
    + right. split.
      * unfold erase. cbn [tmain tthr tgor tmax tchans fst]. rewrite !map_app. cbn [map fst]. apply step_now. eapply step_from_main; eassumption.
      * destruct Hi as [G _]. unfold pending, gors. cbn [tmain tthr fold_right gact snd]. rewrite !map_app, !pending_app. cbn [map fold_right gact snd].
        rewrite (none_count F m (act c0) p0), (none_count F m (act c) p), count_idle; auto; [lia|apply G|apply G]; [right; cbn [tthr]; rewrite map_app; apply in_or_app; right; left; reflexivity|left; reflexivity].
  - assert (A1 : act c1 = None) by (unfold act; rewrite H1; reflexivity). assert (A2 : act c2 = None) by (unfold act; rewrite H2; reflexivity).
    exists m. split.
    + eapply ginv_sub; [exact Hi| |]; unfold gors; cbn [tmain tthr]; repeat (rewrite !map_app; cbn [map]); intros g H; destruct H as [<-|H]; [left; left; reflexivity| |left; left; reflexivity|];
        apply in_app_or in H; (destruct H as [H|[<-|H]]; cbn [gact fst snd]; auto; [left; right; apply in_or_app; auto|]);
        apply in_app_or in H; (destruct H as [H|[<-|H]]; cbn [gact fst snd]; auto); left; right; rewrite in_app_iff; cbn [In]; rewrite in_app_iff; cbn [In]; auto.
    + right. split.
      * unfold erase. cbn [tmain tthr tgor tmax tchans fst]. repeat (rewrite !map_app; cbn [map fst]). apply step_now. eapply step_thr_thr1; eassumption.
      * destruct Hi as [G _]. unfold pending, gors. cbn [tmain tthr fold_right gact snd]. repeat (rewrite !map_app, ?pending_app; cbn [map fold_right gact snd]).
        rewrite (none_count F m (act c1) p1), (none_count F m (act c2) p2), count_idle; auto; [lia|apply G|apply G]; right; cbn [tthr]; repeat (rewrite map_app; cbn [map]); rewrite in_app_iff; cbn [In]; rewrite in_app_iff; cbn [In]; auto.
  - assert (A1 : act c1 = None) by (unfold act; rewrite H1; reflexivity). assert (A2 : act c2 = None) by (unfold act; rewrite H2; reflexivity).
    exists m. split.
    + eapply ginv_sub; [exact Hi| |]; unfold gors; cbn [tmain tthr]; repeat (rewrite !map_app; cbn [map]); intros g H; destruct H as [<-|H]; [left; left; reflexivity| |left; left; reflexivity|];
        apply in_app_or in H; (destruct H as [H|[<-|H]]; cbn [gact fst snd]; auto; [left; right; apply in_or_app; auto|]);
        apply in_app_or in H; (destruct H as [H|[<-|H]]; cbn [gact fst snd]; auto); left; right; rewrite in_app_iff; cbn [In]; rewrite in_app_iff; cbn [In]; auto.
    + right. split.
      * unfold erase. cbn [tmain tthr tgor tmax tchans fst]. repeat (rewrite !map_app; cbn [map fst]). apply step_now. eapply step_thr_thr2; eassumption.
      * destruct Hi as [G _]. unfold pending, gors. cbn [tmain tthr fold_right gact snd]. repeat (rewrite !map_app, ?pending_app; cbn [map fold_right gact snd]).
        rewrite (none_count F m (act c1) p1), (none_count F m (act c2) p2), count_idle; auto; [lia|apply G|apply G]; right; cbn [tthr]; repeat (rewrite map_app; cbn [map]); rewrite in_app_iff; cbn [In]; rewrite in_app_iff; cbn [In]; auto.
  - assert (A2 : act c0 = None) by (unfold act; rewrite Hv; reflexivity).
    exists m. split.
    + eapply ginv_sub; [exact Hi| |]; unfold gors; cbn [tmain tthr]; intros g [<-|H]; cbn [gact fst snd]; auto; left; right; exact H.
    + right. split.
      * unfold erase. cbn [tmain tthr tgor tmax tchans fst]. apply step_stale_main. exact Hv.
      * destruct Hi as [G _]. unfold pending, gors. cbn [tmain tthr fold_right gact snd].
        rewrite (none_count F m (act c0) p0), count_idle; auto; [lia|]. apply G. left. reflexivity.
  - assert (A2 : act c = None) by (unfold act; rewrite Hv; reflexivity).
    exists m. split.
    + eapply ginv_sub; [exact Hi| |]; unfold gors; cbn [tmain tthr]; rewrite !map_app; cbn [map]; intros g H; destruct H as [<-|H]; [left; left; reflexivity| |left; left; reflexivity|];
        apply in_app_or in H; destruct H as [H|[<-|H]]; cbn [gact fst snd]; auto; left; right; apply in_or_app; cbn [In]; auto.
    + right. split.
      * unfold erase. cbn [tmain tthr tgor tmax tchans fst]. rewrite !map_app. cbn [map fst]. eapply step_stale_thr; eassumption.
      * destruct Hi as [G _]. unfold pending, gors. cbn [tmain tthr fold_right gact snd]. rewrite !map_app, !pending_app. cbn [map fold_right gact snd].
        rewrite (none_count F m (act c) p), count_idle; auto; [lia|]. apply G. right. cbn [tthr]. rewrite map_app. apply in_or_app. right. left. reflexivity.
Qed.

Theorem trun_sim n s s' : trun np part join body M Rg n s s' -> forall k m, related k s m ->
  exists j m', related (j + k) s' m' /\ exec body M Rg j (erase s m) (erase s' m') /\
    (n + pending s <= (np + 1) * j + pending s')%nat.
Proof.
  induction 1 as [s|n s s1 s2 H IH Hs|n s c ts F g mg ch F' mg' H IH Hm Hf]; intros k m Hr.
  - exists 0%nat, m. split; [exact Hr|]. split; [constructor|]. lia.
  - destruct (IH k m Hr) as (j & m1 & Hr1 & He1 & Hn). destruct (tstep_sim _ _ _ _ Hr1 Hs) as (m2 & Hi & [(E & Hp)|(Hst & Hp)]).
    + exists j, m2. split; [split; [rewrite E; apply Hr1|exact Hi]|]. split; [rewrite E; exact He1|]. lia.
    + exists (S j), m2. split; [split; [|exact Hi]|].
      * eapply exec_prog; [apply Hr1|exact Hst].
      * split; [eapply exec_prog; [exact He1|exact Hst]|]. lia.
  - destruct (IH k m Hr) as (j & m1 & Hr1 & He1 & Hn). exists j, m1.
    assert (Es : estep M Rg (erase (TSt c ts F g mg ch) m1) (erase (TSt c ts F' g mg' ch) m1)).
    { unfold erase. cbn [tmain tthr tgor tmax tchans]. apply (env_step M Rg (fst c) (map fst ts) (Sh m1 g mg ch) m1 mg' Hm). reflexivity. }
    split; [split; [eapply exec_env; [apply Hr1|exact Es]|]|].
    + destruct Hr1 as [He [G1 G2]]. cbn [tmem] in *. split.
      * intros [a p] Hg q u E. destruct (G1 _ Hg q u E) as [Hq B]. split; [exact Hq|]. cbn [fst] in *. destruct a as [[x [v|]]|]; auto.
        destruct B as [-> B]. split; [reflexivity|]. rewrite Hf; [exact B|]. eapply (in_bound _ m1 _ (Some (x, Some v), p)); [exact He|exact Hg|reflexivity].
      * intros x q Hx Hq. rewrite Hf by exact Hx. apply G2; assumption.
    + split; [eapply exec_env; [exact He1|exact Es]|]. exact Hn.
Qed.

(** ** What can be observed *)

Lemma sim_returned s m r : treturned s r <-> returned (erase s m) r.
Proof. reflexivity. Qed.

Lemma sim_panicked s m : tpanicked s -> panicked (erase s m).
Proof.
  intros [H|(g & Hg & H)]; [left; exact H|right]. exists (fst g). split; [|exact H]. cbn [erase thr]. apply in_map, Hg.
Qed.

Lemma sim_race s m : tornRace np s -> race (erase s m).
Proof.
  intros (i & j & x & wi & wj & pi & pj & q & Hij & Hi & Hj & _ & _ & _ & Hw).
  assert (E : map fst (claims s) = accesses (erase s m)).
  { unfold claims, accesses. cbn [map erase main thr claim fst]. f_equal. rewrite !map_map. reflexivity. }
  exists i, j, x, wi, wj. split; [exact Hij|]. rewrite <- E, !nth_error_map, Hi, Hj. auto.
Qed.

Lemma pend_dec (p : pend) n : (forall q, (q < n)%nat -> p q <> None) \/ exists q, (q < n)%nat /\ p q = None.
Proof.
  induction n as [|n IH]; [left; intros q Hq; lia|]. destruct IH as [IH|(q & Hq & E)]; [|right; exists q; split; [lia|exact E]].
  destruct (p n) eqn:E; [left|right; exists n; split; [lia|exact E]]. intros q Hq. destruct (Nat.eq_dec q n); [subst; congruence|apply IH; lia].
Qed.

Lemma access_step {A} mg (c : cmd P T A) p F n ch : access c <> None ->
  exists c' p' F', tlocal np part join body mg c p F n ch c' p' F' n ch [].
Proof.
  intro H. unfold access in H. destruct (view c) eqn:Ev; try tauto.
  - destruct (pend_dec p np) as [Hall|(q & Hq & Hp)].
    + exists (k (join (fun q => match p q with Some u => u | None => F 0 0%nat end))), idle, F. eapply tl_read_done; [exact Ev|].
      intros q Hq. specialize (Hall q Hq). destruct (p q); [reflexivity|tauto].
    + eexists _, _, _. eapply tl_read; eauto.
  - destruct (pend_dec p np) as [Hall|(q & Hq & Hp)].
    + eexists _, _, _. eapply tl_write_done; eauto.
    + eexists _, _, _. eapply tl_write; eauto.
Qed.

Lemma local_step {A} mg (c : cmd P T A) p F n ch m c' s' fs : exec_local body c (Sh m n mg ch) = Some (c', s', fs) ->
  exists c1 p1 F1 n1 ch1 fs1, tlocal np part join body mg c p F n ch c1 p1 F1 n1 ch1 fs1.
Proof.
  intro H. destruct (access c) eqn:Ea.
  - destruct (access_step mg c p F n ch) as (c1 & p1 & F1 & H1); [congruence|]. eauto 10.
  - destruct (local_keeps body c m n mg ch c' s' fs m Ea H) as (_ & _ & H1). eexists _, _, _, _, _, _. eapply tl_other; eauto.
Qed.

Lemma map_split {X Y} (f : X -> Y) l l1 y l2 : map f l = l1 ++ y :: l2 -> exists k1 x k2, l = k1 ++ x :: k2 /\ map f k1 = l1 /\ f x = y /\ map f k2 = l2.
Proof.
  revert l; induction l1 as [|z l1 IH]; intros [|x l] H; try discriminate; cbn in H; injection H as H1 H2.
  - exists [], x, l. auto.
  - destruct (IH l H2) as (k1 & x1 & k2 & -> & E1 & E2 & E3). exists (x :: k1), x1, k2. cbn. rewrite H1, E1. auto.
Qed.

Lemma sim_progress s m s' : pstep body (erase s m) s' -> exists s1, tstep np part join body s s1.
Proof.
  destruct s as [[c p] ts F n mg ch]. unfold erase. cbn [tmain tthr tgor tmax tchans fst]. intro H.
  remember (St c (map fst ts) (Sh m n mg ch)) as st eqn:E. destruct H as [st st' H|c0 ts0 s k z Hv|c0 l1 c1 l2 s k z Hv].
  - destruct H as [c0 ts0 s c' s'' fs Hx|c0 l1 c1 l2 s c' s'' fs Hx|c0 l1 c1 l2 s v k k' H1 H2|c0 l1 c1 l2 s v k k' H1 H2|c0 l1 c1 l2 c2 l3 s v k k' H1 H2|c0 l1 c1 l2 c2 l3 s v k k' H1 H2];
      injection E as -> E1 ->.
    + destruct (local_step mg c p F n ch m _ _ _ Hx) as (? & ? & ? & ? & ? & ? & Hl). eexists. eapply ts_main, Hl.
    + symmetry in E1. apply map_split in E1. destruct E1 as (k1 & [d pd] & k2 & -> & <- & E2 & <-). cbn in E2. subst d.
      destruct (local_step mg c1 pd F n ch m _ _ _ Hx) as (? & ? & ? & ? & ? & ? & Hl). eexists. eapply ts_thr, Hl.
    + symmetry in E1. apply map_split in E1. destruct E1 as (k1 & [d pd] & k2 & -> & <- & E2 & <-). cbn in E2. subst d.
      eexists. eapply ts_to_main; eassumption.
    + symmetry in E1. apply map_split in E1. destruct E1 as (k1 & [d pd] & k2 & -> & <- & E2 & <-). cbn in E2. subst d.
      eexists. eapply ts_from_main; eassumption.
    + symmetry in E1. apply map_split in E1. destruct E1 as (k1 & [d pd] & k2 & -> & <- & E2 & E1). cbn in E2. subst d.
      apply map_split in E1. destruct E1 as (k3 & [d pd2] & k4 & -> & <- & E2 & <-). cbn in E2. subst d.
      eexists. eapply ts_thr_thr1; eassumption.
    + symmetry in E1. apply map_split in E1. destruct E1 as (k1 & [d pd] & k2 & -> & <- & E2 & E1). cbn in E2. subst d.
      apply map_split in E1. destruct E1 as (k3 & [d pd2] & k4 & -> & <- & E2 & <-). cbn in E2. subst d.
      eexists. eapply ts_thr_thr2; eassumption.
  - injection E as -> E1 ->. eexists. eapply (ts_stale_main np part join body c p ts F n mg ch k z). exact Hv.
  - injection E as -> E1 ->. symmetry in E1. apply map_split in E1. destruct E1 as (k1 & [d pd] & k2 & -> & <- & E2 & <-). cbn in E2. subst d.
    eexists. eapply (ts_stale_thr np part join body (c, p) k1 c1 pd k2 F n mg ch k z). exact Hv.
Qed.

(** Without a writer, memory is as with whole elements. *)
Lemma sim_memory F m l x q : ginv F m l -> (forall v p, ~ In (Some (x, Some v), p) l) -> Rg x -> (q < np)%nat -> F x q = part (m x) q.
Proof. intros [_ G] H Hx Hq. destruct (G x q Hx Hq) as [E|(v & p & Hi & _)]; [exact E|destruct (H _ _ Hi)]. Qed.

Lemma pending_le s : (pending s <= np * S (length (tthr s)))%nat.
Proof.
  unfold pending. replace (S (length (tthr s))) with (length (gors s)) by (unfold gors; cbn; rewrite map_length; reflexivity).
  generalize (gors s). intro l. induction l as [|g l IH]; cbn [fold_right length]; [lia|]. assert (C := count_le (snd g)). nia.
Qed.

(** Steps change nothing but the element the goroutine writes. *)
Lemma tlocal_frame {A} mg (c : cmd P T A) p F n ch c' p' F' n' ch' fs : tlocal np part join body mg c p F n ch c' p' F' n' ch' fs ->
  (forall x w, access c = Some (x, w) -> Rg x) -> forall x q, ~ Rg x \/ (np <= q)%nat -> F' x q = F x q.
Proof.
  intros H Hb x q Hx. destruct H; try reflexivity. unfold mset. destruct (Z.eqb_spec x i) as [->|N]; [|reflexivity]. cbn [andb].
  destruct (Nat.eqb_spec q q0) as [->|N]; [|reflexivity]. exfalso. destruct Hx as [Hx|Hx]; [|lia]. apply Hx, (Hb i true).
  unfold access. rewrite H. reflexivity.
Qed.

Lemma tstep_frame k s s' m : related k s m -> tstep np part join body s s' ->
  forall x q, ~ Rg x \/ (np <= q)%nat -> tmem s' x q = tmem s x q.
Proof.
  intros [He _] Hs. destruct Hs; cbn [tmem]; try reflexivity.
  - eapply tlocal_frame; [eassumption|]. eapply (bound_access c p _ m); [exact He|]. left. reflexivity.
  - eapply tlocal_frame; [eassumption|]. eapply (bound_access c p _ m); [exact He|]. right. cbn [tthr]. rewrite map_app. apply in_or_app. right. left. reflexivity.
Qed.

Lemma related_start c F mg m : s0 = start c m mg -> (forall x q, Rg x -> (q < np)%nat -> F x q = part (m x) q) ->
  related 0 (tstart c F mg) m.
Proof.
  intros E HF. split; [rewrite E; apply exec_refl|]. split.
  - intros g [<-|[]]. apply gok_idle.
  - intros x q Hx Hq. left. apply HF; assumption.
Qed.

(** ** The other way round: every execution with whole elements can take place in parts *)

Definition whole (F : Z -> nat -> V) (m : Z -> T) : Prop := forall x q, Rg x -> (q < np)%nat -> F x q = part (m x) q.

(** Steps of one goroutine that starts none. *)
Inductive lrun {A} (mg n ch : Z) : nat -> cmd P T A -> pend -> (Z -> nat -> V) -> cmd P T A -> pend -> (Z -> nat -> V) -> Prop :=
| lrun_refl c p F : lrun mg n ch 0 c p F c p F
| lrun_step j c p F c1 p1 F1 c2 p2 F2 : lrun mg n ch j c p F c1 p1 F1 ->
    tlocal np part join body mg c1 p1 F1 n ch c2 p2 F2 n ch [] -> lrun mg n ch (S j) c p F c2 p2 F2.

Lemma lrun_main mg n ch j c p F c' p' F' ts : lrun mg n ch j c p F c' p' F' ->
  trun np part join body M Rg j (TSt (c, p) ts F n mg ch : tst) (TSt (c', p') ts F' n mg ch).
Proof.
  induction 1; [constructor|]. eapply trun_prog; [exact IHlrun|].
  assert (S := ts_main np part join body c1 p1 ts F1 n mg ch c2 p2 F2 n ch [] H0). cbn [map] in S. rewrite app_nil_r in S. exact S.
Qed.

Lemma lrun_thr mg n ch j c p F c' p' F' g l1 l2 : lrun mg n ch j c p F c' p' F' ->
  trun np part join body M Rg j (TSt g (l1 ++ (c, p) :: l2) F n mg ch : tst) (TSt g (l1 ++ (c', p') :: l2) F' n mg ch).
Proof.
  induction 1; [constructor|]. eapply trun_prog; [exact IHlrun|].
  assert (S := ts_thr np part join body g l1 c1 p1 l2 F1 n mg ch c2 p2 F2 n ch [] H0). cbn [map] in S. rewrite app_nil_r in S. exact S.
Qed.

Lemma read_parts {A} mg n ch (c : cmd P T A) x k F : view c = HRead x k -> forall j, (j <= np)%nat ->
  exists p, lrun mg n ch j c idle F c p F /\ (forall q, (q < j)%nat -> p q = Some (F x q)) /\ (forall q, (j <= q)%nat -> p q = None).
Proof.
  intros Hv. induction j as [|j IH]; intro Hj.
  - exists idle. split; [constructor|]. split; [intros q Hq; lia|reflexivity].
  - destruct (IH ltac:(lia)) as (p & H & P1 & P2). exists (pset p j (F x j)). split; [|split].
    + eapply lrun_step; [exact H|]. eapply tl_read; [exact Hv|lia|apply P2; lia].
    + intros q Hq. unfold pset. destruct (Nat.eqb_spec q j) as [->|N]; [reflexivity|apply P1; lia].
    + intros q Hq. unfold pset. destruct (Nat.eqb_spec q j) as [->|N]; [lia|apply P2; lia].
Qed.

Lemma write_parts {A} mg n ch (c : cmd P T A) x v k F : view c = HWrite x v k -> forall j, (j <= np)%nat ->
  exists p F', lrun mg n ch j c idle F c p F' /\ (forall q, (q < j)%nat -> p q <> None /\ F' x q = part v q) /\
    (forall q, (j <= q)%nat -> p q = None /\ F' x q = F x q) /\ (forall y q, y <> x -> F' y q = F y q).
Proof.
  intros Hv. induction j as [|j IH]; intro Hj.
  - exists idle, F. split; [constructor|]. split; [intros q Hq; lia|]. split; [|reflexivity]. intros q _. split; reflexivity.
  - destruct (IH ltac:(lia)) as (p & F' & H & P1 & P2 & P3). exists (pset p j (part v j)), (mset F' x j (part v j)). split; [|split; [|split]].
    + eapply lrun_step; [exact H|]. eapply tl_write; [exact Hv|lia|apply P2; lia].
    + intros q Hq. unfold pset, mset. rewrite Z.eqb_refl. cbn [andb]. destruct (Nat.eqb_spec q j) as [->|N]; [split; [discriminate|reflexivity]|apply P1; lia].
    + intros q Hq. unfold pset, mset. rewrite Z.eqb_refl. cbn [andb]. destruct (Nat.eqb_spec q j) as [->|N]; [lia|apply P2; lia].
    + intros y q Hy. unfold mset. destruct (Z.eqb_spec y x); [tauto|]. apply P3, Hy.
Qed.

Lemma access_whole {A} mg n ch (c : cmd P T A) F m c' s' fs x w :
  exec_local body c (Sh m n mg ch) = Some (c', s', fs) -> access c = Some (x, w) -> Rg x -> good (m x) -> whole F m ->
  fs = [] /\ ngor s' = n /\ maxg s' = mg /\ chans s' = ch /\
  exists j F', lrun mg n ch j c idle F c' idle F' /\ whole F' (mem s').
Proof.
  unfold access, exec_local. destruct (view c) eqn:Hv; intros Hx Ha HR HG HW; try discriminate; injection Ha as -> <-; injection Hx as <- <- <-;
    do 4 (split; [reflexivity|]); cbn [mem].
  - destruct (read_parts mg n ch c x k F Hv np (le_n _)) as (p & Hl & P1 & _). exists (S np), F. split; [|exact HW].
    eapply lrun_step; [exact Hl|]. replace (m x) with (join (F x)); [eapply tl_read_done; [exact Hv|exact P1]|].
    apply Hjoin; [exact HG|]. intros q Hq. apply HW; assumption.
  - destruct (write_parts mg n ch c x v k F Hv np (le_n _)) as (p & F' & Hl & P1 & _ & P3). exists (S np), F'. split.
    + eapply lrun_step; [exact Hl|]. eapply tl_write_done; [exact Hv|]. intros q Hq. apply P1, Hq.
    + intros y q Hy Hq. unfold upd. destruct (Z.eqb_spec y x) as [->|N]; [apply P1, Hq|]. rewrite P3 by exact N. apply HW; assumption.
Qed.

Definition inParts (s : st P T R) (F : Z -> nat -> V) : tst :=
  TSt (main s, idle) (map (fun d => (d, idle)) (thr s)) F (ngor (sh s)) (maxg (sh s)) (chans (sh s)).

Lemma pstep_whole k s s' F : exec body M Rg k s0 s -> pstep body s s' -> whole F (mem (sh s)) ->
  exists n F', trun np part join body M Rg n (inParts s F) (inParts s' F') /\ whole F' (mem (sh s')).
Proof.
  intros He Hs HW. assert (HB := fun x w => Hbound k s x w He). assert (HG := fun x => Hgood k s x He).
  destruct Hs as [s s' H|c0 ts0 sm kk z Hv|c0 l1 c1 l2 sm kk z Hv].
  - destruct H as [c0 ts0 sm c' s'' fs Hx|c0 l1 c1 l2 sm c' s'' fs Hx|c0 l1 c1 l2 sm v kk k' H1 H2|c0 l1 c1 l2 sm v kk k' H1 H2|c0 l1 c1 l2 c2 l3 sm v kk k' H1 H2|c0 l1 c1 l2 c2 l3 sm v kk k' H1 H2];
      unfold inParts; cbn [main thr sh] in *; destruct sm as [m n mg ch]; cbn [mem ngor maxg chans] in *.
    + destruct (access c0) as [[x w]|] eqn:Ea.
      * assert (Rx : Rg x) by (apply (HB x w); left; cbn [main]; exact Ea).
        destruct (access_whole mg n ch c0 F m c' s'' fs x w Hx Ea Rx (HG x Rx) HW) as (-> & -> & -> & -> & j & F' & Hl & HW').
        exists j, F'. split; [|exact HW']. rewrite app_nil_r. apply lrun_main, Hl.
      * destruct (local_keeps body c0 m n mg ch c' s'' fs m Ea Hx) as (Em & Eg & Hx'). rewrite Em, Eg.
        exists 1%nat, F. split; [|exact HW]. eapply trun_prog; [constructor|]. rewrite map_app. apply ts_main. eapply tl_other; [exact Ea|exact Hx'].
    + destruct (access c1) as [[x w]|] eqn:Ea.
      * assert (Rx : Rg x) by (apply (HB x w); right; cbn [thr]; rewrite map_app; apply in_or_app; right; left; exact Ea).
        destruct (access_whole mg n ch c1 F m c' s'' fs x w Hx Ea Rx (HG x Rx) HW) as (-> & -> & -> & -> & j & F' & Hl & HW').
        exists j, F'. split; [|exact HW']. rewrite app_nil_r, !map_app. cbn [map]. apply lrun_thr, Hl.
      * destruct (local_keeps body c1 m n mg ch c' s'' fs m Ea Hx) as (Em & Eg & Hx'). rewrite Em, Eg.
        exists 1%nat, F. split; [|exact HW]. eapply trun_prog; [constructor|]. rewrite !map_app. cbn [map]. rewrite map_app. apply ts_thr. eapply tl_other; [exact Ea|exact Hx'].
    + exists 1%nat, F. split; [|exact HW]. eapply trun_prog; [constructor|]. rewrite !map_app. cbn [map]. eapply ts_to_main; eassumption.
    + exists 1%nat, F. split; [|exact HW]. eapply trun_prog; [constructor|]. rewrite !map_app. cbn [map]. eapply ts_from_main; eassumption.
    + exists 1%nat, F. split; [|exact HW]. eapply trun_prog; [constructor|]. repeat (rewrite !map_app; cbn [map]). eapply ts_thr_thr1; eassumption.
    + exists 1%nat, F. split; [|exact HW]. eapply trun_prog; [constructor|]. repeat (rewrite !map_app; cbn [map]). eapply ts_thr_thr2; eassumption.
  - exists 1%nat, F. split; [|exact HW]. eapply trun_prog; [constructor|]. unfold inParts. cbn [main thr sh]. apply ts_stale_main. exact Hv.
  - exists 1%nat, F. split; [|exact HW]. eapply trun_prog; [constructor|]. unfold inParts. cbn [main thr sh]. rewrite !map_app. cbn [map]. apply ts_stale_thr. exact Hv.
Qed.

Lemma trun_trans n s s1 n' s2 : trun np part join body M Rg n s s1 -> trun np part join body M Rg n' s1 s2 ->
  trun np part join body M Rg (n' + n) s (s2 : tst).
Proof.
  intros H1 H2. induction H2; [exact H1| |].
  - eapply trun_prog; [apply IHtrun, H1|assumption].
  - eapply trun_env; [apply IHtrun, H1|assumption|assumption].
Qed.

Theorem exec_whole k s F : exec body M Rg k s0 s -> whole F (mem (sh s0)) ->
  exists n F', trun np part join body M Rg n (inParts s0 F) (inParts s F') /\ whole F' (mem (sh s)).
Proof.
  intros H HW. assert (Hrefl : exec body M Rg 0 s0 s0) by constructor.
  remember s0 as s1 eqn:E in H. induction H as [s|n s s1 s2 H IH Hs|n s s1 s2 H IH Hs]; subst.
  - exists 0%nat, F. split; [constructor|exact HW].
  - destruct (IH eq_refl) as (n1 & F1 & H1 & W1). destruct (pstep_whole _ _ _ _ H Hs W1) as (n2 & F2 & H2 & W2).
    exists (n2 + n1)%nat, F2. split; [eapply trun_trans; eassumption|exact W2].
  - destruct (IH eq_refl) as (n1 & F1 & H1 & W1). exists n1, F1. destruct Hs as [c ts sm m' mg' Hm Hf]. cbn [sh mem] in *. split.
    + unfold inParts in *. cbn [main thr sh ngor maxg chans] in *. eapply trun_env; [exact H1|exact Hm|reflexivity].
    + intros x q Hx Hq. rewrite Hf by exact Hx. apply W1; assumption.
Qed.

End TornFacts.
