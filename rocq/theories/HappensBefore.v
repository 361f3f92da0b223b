(** * Ownership implies happens-before

    The ghost states of [ConcLogic.v] say which goroutine may access which cells.  Here:
    a goroutine that may write a cell knows (in the sense of happens-before) every earlier
    access to it, and one that may read it knows every earlier write. *)

From Coq Require Import List ZArith Lia Bool Permutation.
From Verif Require Import Lang SeqLogic ConcLogic Soundness Trace.
Import ListNotations.
Open Scope Z_scope.

(** ** Traces *)

Lemma nth_app_old {X} (l : list X) x i y : nth_error l i = Some y -> nth_error (l ++ [x]) i = Some y.
Proof. intro H. rewrite nth_error_app1; [exact H|]. apply nth_error_Some. congruence. Qed.

Lemma nth_app_new {X} (l : list X) x : nth_error (l ++ [x]) (length l) = Some x.
Proof. rewrite nth_error_app2 by lia. rewrite Nat.sub_diag. reflexivity. Qed.

Lemma nth_app_inv {X} (l : list X) x i y : nth_error (l ++ [x]) i = Some y ->
  nth_error l i = Some y \/ (i = length l /\ y = x).
Proof.
  intro H. destruct (Nat.lt_ge_cases i (length l)) as [Hl|Hl].
  - left. rewrite nth_error_app1 in H by exact Hl. exact H.
  - right. rewrite nth_error_app2 in H by exact Hl.
    destruct (i - length l)%nat as [|d] eqn:E; [|destruct d; discriminate].
    simpl in H. inversion H; subst. split; [lia|reflexivity].
Qed.

Lemma nth_lt {X} (l : list X) i y : nth_error l i = Some y -> (i < length l)%nat.
Proof. intro H. apply nth_error_Some. congruence. Qed.

Lemma hb_app tr e i j : hb tr i j -> hb (tr ++ [e]) i j.
Proof.
  induction 1.
  - eapply hb_program; eauto using nth_app_old.
  - eapply hb_go; eauto using nth_app_old.
  - eapply hb_atomic; eauto using nth_app_old.
  - eapply hb_trans; eauto.
Qed.

(** [e] at position [i], or before it. *)
Definition hbeq tr i j : Prop := i = j \/ hb tr i j.

(** Everything that goroutine [t] will do happens after event [i]. *)
Definition knows (tr : list event) (t : nat) (i : nat) : Prop :=
  exists j ej, nth_error tr j = Some ej /\ (doneBy ej t \/ exists p, ej = EvGo p t) /\ hbeq tr i j.

(** Every later atomic operation happens after event [i]. *)
Definition knowsA (tr : list event) (i : nat) : Prop :=
  exists j t, nth_error tr j = Some (EvAtomic t) /\ hbeq tr i j.

Lemma hbeq_app tr e i j : hbeq tr i j -> hbeq (tr ++ [e]) i j.
Proof. intros [->|H]; [left; reflexivity|right; apply hb_app; exact H]. Qed.

Lemma hbeq_hb tr i j k : hbeq tr i j -> hb tr j k -> hb tr i k.
Proof. intros [->|H] H1; [exact H1|eapply hb_trans; eauto]. Qed.

Lemma knows_app tr e t i : knows tr t i -> knows (tr ++ [e]) t i.
Proof.
  intros (j & ej & H1 & H2 & H3). exists j, ej. split; [apply nth_app_old; exact H1|].
  split; [exact H2|apply hbeq_app; exact H3].
Qed.

Lemma knowsA_app tr e i : knowsA tr i -> knowsA (tr ++ [e]) i.
Proof.
  intros (j & t & H1 & H3). exists j, t. split; [apply nth_app_old; exact H1|apply hbeq_app; exact H3].
Qed.

(** What a goroutine knows happens before its next event. *)
Lemma knows_next tr e t i : knows tr t i -> doneBy e t -> hb (tr ++ [e]) i (length tr).
Proof.
  intros (j & ej & H1 & H2 & H3) He. eapply hbeq_hb; [apply hbeq_app; exact H3|].
  assert (Hj := nth_lt _ _ _ H1). destruct H2 as [H2|(p & ->)].
  - eapply hb_program; eauto using nth_app_old, nth_app_new.
  - eapply hb_go; eauto using nth_app_old, nth_app_new.
Qed.

Lemma knows_own tr e t : doneBy e t -> knows (tr ++ [e]) t (length tr).
Proof.
  intro H. exists (length tr), e. split; [apply nth_app_new|]. split; [left; exact H|left; reflexivity].
Qed.

Lemma knows_self tr t n e : nth_error tr n = Some e -> doneBy e t -> knows tr t n.
Proof. intros H1 H2. exists n, e. split; [exact H1|]. split; [left; exact H2|left; reflexivity]. Qed.

(** The new event makes its goroutine's knowledge known to another. *)
Lemma knows_pass tr e t u i : knows tr t i -> doneBy e t ->
  (doneBy e u \/ exists p, e = EvGo p u) -> knows (tr ++ [e]) u i.
Proof.
  intros H1 H2 H3. exists (length tr), e. split; [apply nth_app_new|]. split; [exact H3|].
  right. eapply knows_next; eauto.
Qed.

Lemma knows_publish tr t i : knows tr t i -> knowsA (tr ++ [EvAtomic t]) i.
Proof.
  intro H. exists (length tr), t. split; [apply nth_app_new|]. right.
  eapply knows_next; [exact H|reflexivity].
Qed.

Lemma knowsA_acquire tr t i : knowsA tr i -> knows (tr ++ [EvAtomic t]) t i.
Proof.
  intros (j & u & H1 & H2). exists (length tr), (EvAtomic t). split; [apply nth_app_new|].
  split; [left; reflexivity|]. right. eapply hbeq_hb; [apply hbeq_app; exact H2|].
  eapply hb_atomic; [eapply nth_lt; exact H1|apply nth_app_old; exact H1|apply nth_app_new].
Qed.

Lemma touches_doneBy e x w t : touches e x w -> doneBy e t -> 
  (w = false /\ e = EvRead t x) \/ (w = true /\ e = EvWrite t x).
Proof.
  intros [(-> & u & ->)|(-> & u & ->)] H; simpl in H; subst; auto.
Qed.

(** ** Ghost states along a step *)

Section Ghosts.
Context {T : Type}.
Implicit Types (g : gst T) (gs : list (gst T)).

Definition finished g : Prop := md g = MDone.

(** Modes that stay the same kind. *)
Definition sameKind (m m' : mode T) : Prop :=
  match m with
  | MPart j => m' = MPart j
  | MDone => m' = MDone
  | MLast => m' = MLast
  | MFinal _ | MWait _ => m' = m
  | _ => match m' with MSeq | MInit | MAct _ => True | _ => False end
  end.

Definition upd1 gs t g' gs' : Prop :=
  forall u, nth_error gs' u = if Nat.eqb u t then Some g' else nth_error gs u.

(** What the ghost states do when an event happens. *)
Inductive gstep : event -> list (gst T) -> list (gst T) -> Prop :=
| gs_stay e t g g' gs gs' :
    nth_error gs t = Some g -> upd1 gs t g' gs' ->
    dom g' = dom g -> rd g' = rd g -> sameKind (md g) (md g') ->
    (e = EvStep t \/ e = EvAtomic t \/ (exists i, e = EvRead t i /\ live g /\ rd g i) \/
     (exists i, e = EvWrite t i /\ live g /\ dom g i)) ->
    gstep e gs gs'
| gs_fork t g g' gc a gs gs' :
    nth_error gs t = Some g ->
    (forall u, nth_error gs' u = if Nat.eqb u t then Some g'
               else if Nat.eqb u (length gs) then Some gc else nth_error gs u) ->
    (forall i, dom g' i -> dom g i) -> (forall i, rd g' i -> rd g i) ->
    (forall i, dom gc i -> dom g i) -> (forall i, rd gc i -> rd g i) ->
    md g' = MAct a ->
    ((exists ac, md gc = MAct ac) \/ (t = O /\ exists j, md gc = MPart j /\ forall i, j_D j i -> dom g i)) ->
    (match md g with MAct _ => True | _ => False end) ->
    gstep (EvGo t (length gs)) gs gs'
| gs_dec t g g' gs gs' :
    nth_error gs t = Some g -> upd1 gs t g' gs' ->
    (forall i, ~ rd g' i) -> (forall i, ~ dom g' i) ->
    (match md g with MAct _ => True | _ => False end) ->
    (match md g' with
     | MDone => t <> O
     | MWait _ => t = O
     | MLast | MFinal _ => forall u h, u <> t -> u <> O -> nth_error gs u = Some h -> finished h
     | _ => False
     end) -> (md g' = MLast -> t <> O) -> (forall Pf, md g' = MFinal Pf -> t = O) ->
    gstep (EvAtomic t) gs gs'
| gs_join t g gm gm' g' j a gs gs' :
    nth_error gs O = Some gm -> nth_error gs t = Some g -> t <> O ->
    md g = MPart j -> md gm' = MAct a -> (match md gm with MAct _ => True | _ => False end) ->
    (forall i, dom gm' i -> dom gm i \/ j_D j i) -> (forall i, rd gm' i -> rd gm i \/ j_D j i) ->
    md g' = MDone -> (forall i, ~ rd g' i) -> (forall i, ~ dom g' i) ->
    (forall u, nth_error gs' u = if Nat.eqb u O then Some gm' else
               if Nat.eqb u t then Some g' else nth_error gs u) ->
    gstep (EvComm t O) gs gs'
| gs_final t g gm gm' g' Pf gs gs' :
    nth_error gs O = Some gm -> nth_error gs t = Some g -> t <> O ->
    md g = MLast -> md gm' = MFinal Pf -> (exists Pf, md gm = MWait Pf) ->
    (forall i, dom gm' i -> dom gm i) -> (forall i, rd gm' i -> rd gm i) ->
    md g' = MDone -> (forall i, ~ rd g' i) -> (forall i, ~ dom g' i) ->
    (forall u, nth_error gs' u = if Nat.eqb u O then Some gm' else
               if Nat.eqb u t then Some g' else nth_error gs u) ->
    gstep (EvComm t O) gs gs'.

(** Exclusive ownership: what is needed of [GG]. *)
Record excl gs : Prop := {
  ex_dom : forall t u g h i, nth_error gs t = Some g -> nth_error gs u = Some h -> t <> u ->
           dom g i -> rd h i -> False;
  ex_wf : forall t g i, nth_error gs t = Some g -> dom g i -> rd g i;
  ex_part : forall t u g h j i, nth_error gs t = Some g -> md g = MPart j -> t <> O ->
            nth_error gs u = Some h -> u <> t -> u <> O -> j_D j i -> rd h i -> False;
  ex_last : forall t u g h, nth_error gs t = Some g -> md g = MLast -> nth_error gs u = Some h -> live h -> False;
  ex_final : forall Pf g u h, nth_error gs O = Some g -> md g = MFinal Pf -> nth_error gs u = Some h -> live h -> False
}.

(** The invariant. *)
Record HB (tr : list event) gs : Prop := {
  hb_in : forall n e t, nth_error tr n = Some e -> doneBy e t -> exists g, nth_error gs t = Some g;
  hb_own : forall n e x w t g, nth_error tr n = Some e -> touches e x w -> nth_error gs t = Some g ->
           dom g x \/ (rd g x /\ w = true) -> knows tr t n;
  hb_part : forall n e x w t g j, nth_error tr n = Some e -> touches e x w -> nth_error gs t = Some g ->
           t <> O -> md g = MPart j -> j_D j x -> knows tr O n \/ knows tr t n;
  hb_done : forall n e x w t g, nth_error tr n = Some e -> touches e x w -> doneBy e t -> t <> O ->
           nth_error gs t = Some g -> md g = MDone -> knowsA tr n \/ knows tr O n;
  hb_last : forall n e x w t g, nth_error tr n = Some e -> touches e x w -> nth_error gs t = Some g ->
           t <> O -> md g = MLast -> knows tr t n \/ knows tr O n;
  hb_final : forall n e x w g Pf, nth_error tr n = Some e -> touches e x w -> nth_error gs O = Some g ->
           md g = MFinal Pf -> knows tr O n;
  hb_norace : ~ dataRace tr
}.

Lemma live_or g : live g \/ ~ live g.
Proof. unfold live. destruct (md g); tauto. Qed.

Lemma touches_acc t e x w : touches e x w -> doneBy e t ->
  e <> EvStep t /\ e <> EvAtomic t.
Proof. intros [(-> & u & ->)|(-> & u & ->)] H; split; discriminate. Qed.

(** No new race if the goroutine knows the accesses it conflicts with. *)
Lemma norace_step tr e : ~ dataRace tr ->
  (forall x w t n en wn, touches e x w -> doneBy e t -> nth_error tr n = Some en -> touches en x wn ->
     w = true \/ wn = true -> knows tr t n) ->
  ~ dataRace (tr ++ [e]).
Proof.
  intros Hn Hk (i & j & ei & ej & x & wi & wj & Hij & Hi & Hj & Ti & Tj & Hw & Hb).
  destruct (nth_app_inv _ _ _ _ Hj) as [Hj'|[-> ->]].
  - apply Hn. assert (Hl := nth_lt _ _ _ Hj').
    destruct (nth_app_inv _ _ _ _ Hi) as [Hi'|[-> ->]]; [|lia].
    exists i, j, ei, ej, x, wi, wj. repeat (split; [assumption|]).
    intro H. apply Hb. apply hb_app. exact H.
  - destruct (nth_app_inv _ _ _ _ Hi) as [Hi'|[-> ->]]; [|lia].
    apply Hb.
    assert (Hd : exists t, doneBy e t) by (destruct Tj as [(_ & t & ->)|(_ & t & ->)]; exists t; reflexivity).
    destruct Hd as (t & Hd). eapply knows_next; [|exact Hd].
    eapply Hk; eauto. tauto.
Qed.

Lemma nth_upd1 gs t g' gs' u h : upd1 gs t g' gs' -> nth_error gs' u = Some h ->
  (u = t /\ h = g') \/ (u <> t /\ nth_error gs u = Some h).
Proof.
  intros H Hu. rewrite H in Hu. destruct (Nat.eqb_spec u t); [left; split; congruence|right; auto].
Qed.

Lemma kind_part m m' j : sameKind m m' -> m' = MPart j -> m = MPart j.
Proof. intros H ->. destruct m; simpl in H; try contradiction; congruence. Qed.
Lemma kind_done m m' : sameKind m m' -> m' = MDone -> m = MDone.
Proof. intros H ->. destruct m; simpl in H; try contradiction; congruence. Qed.
Lemma kind_last m m' : sameKind m m' -> m' = MLast -> m = MLast.
Proof. intros H ->. destruct m; simpl in H; try contradiction; congruence. Qed.
Lemma kind_final m m' Pf : sameKind m m' -> m' = MFinal Pf -> m = MFinal Pf.
Proof. intros H ->. destruct m; simpl in H; try contradiction; congruence. Qed.

Lemma nolive (g : gst T) m : md g = m -> match m with MSeq | MInit | MAct _ | MPart _ => False | _ => True end ->
  ~ live g.
Proof. intros E H. unfold live. rewrite E. destruct m; tauto. Qed.

Ltac news H := apply nth_app_inv in H; destruct H as [H|[-> ->]].

Theorem HB_step e gs gs' tr : excl gs -> gstep e gs gs' -> HB tr gs -> HB (tr ++ [e]) gs'.
Proof.
  intros HX HG [K0 K1 K2 K3 K4 K5 K6]. destruct HG as
    [e t g g' gs gs' Ht Hu Ed Er Hk He
    |t g g' gc a gs gs' Ht Hu Hd Hr Hdc Hrc Hm Hc Hact
    |t g g' gs gs' Ht Hu Hnr Hnd Hact Hm Hm1 Hm2
    |t g gm gm' g' j a gs gs' H0 Ht Ht0 Em Em' Hact Hd Hr Eg' Hnr Hnd Hu
    |t g gm gm' g' Pf gs gs' H0 Ht Ht0 Em Em' Hact Hd Hr Eg' Hnr Hnd Hu].
  - (* same ownership *)
    assert (Hby : forall u, doneBy e u -> u = t).
    { intros u. destruct He as [->|[->|[(i & -> & _)|(i & -> & _)]]]; simpl; auto. }
    assert (Hby' : doneBy e t) by (destruct He as [->|[->|[(i & -> & _)|(i & -> & _)]]]; reflexivity).
    assert (Hacc : forall x w, touches e x w -> live g /\ rd g x /\ (w = true -> dom g x)).
    { intros x w Ht'. destruct Ht' as [(-> & u & ->)|(-> & u & ->)];
        destruct He as [He|[He|[(i & He & Hl & Hi)|(i & He & Hl & Hi)]]]; try discriminate; inversion He; subst.
      - split; [exact Hl|]. split; [exact Hi|discriminate].
      - split; [exact Hl|]. split; [eapply (ex_wf _ HX); eauto|auto]. }
    assert (Hold : forall u h, nth_error gs' u = Some h -> exists h0, nth_error gs u = Some h0 /\
              dom h = dom h0 /\ rd h = rd h0 /\ sameKind (md h0) (md h)).
    { intros u h Hh. destruct (nth_upd1 _ _ _ _ _ _ Hu Hh) as [[-> ->]|[Hne Hh']].
      - exists g. auto.
      - exists h. split; [exact Hh'|]. split; [reflexivity|]. split; [reflexivity|].
        unfold sameKind. destruct (md h); auto. }
    constructor.
    + intros n en u Hn Hby0. news Hn.
      * destruct (K0 _ _ _ Hn Hby0) as (h & Hh). rewrite Hu. destruct (Nat.eqb u t); eauto.
      * rewrite (Hby u Hby0), Hu, Nat.eqb_refl. eauto.
    + intros n en x w u h Hn Hto Hh Hor. destruct (Hold _ _ Hh) as (h0 & Hh0 & E1 & E2 & _).
      rewrite E1, E2 in Hor. news Hn.
      * apply knows_app. eapply K1; eauto.
      * destruct (Nat.eq_dec u t) as [->|Hne]; [apply knows_own; exact Hby'|]. exfalso.
        destruct (Hacc x w Hto) as (_ & A2 & A3). destruct Hor as [Hor|[Hor Hw]].
        -- apply (ex_dom _ HX u t h0 g x Hh0 Ht Hne Hor A2).
        -- apply (ex_dom _ HX t u g h0 x Ht Hh0 (not_eq_sym Hne) (A3 Hw) Hor).
    + intros n en x w u h j Hn Hto Hh Hu0 Emh Hj. destruct (Hold _ _ Hh) as (h0 & Hh0 & E1 & E2 & E3).
      assert (Em0 := kind_part _ _ _ E3 Emh). news Hn.
      * destruct (K2 _ _ _ _ _ _ _ Hn Hto Hh0 Hu0 Em0 Hj); [left|right]; apply knows_app; assumption.
      * destruct (Hacc x w Hto) as (_ & A2 & _).
        destruct (Nat.eq_dec t O) as [->|Hne0]; [left; apply knows_own; exact Hby'|].
        destruct (Nat.eq_dec t u) as [->|Hne]; [right; apply knows_own; exact Hby'|].
        exfalso. apply (ex_part _ HX u t h0 g j x Hh0 Em0 Hu0 Ht Hne Hne0 Hj A2).
    + intros n en x w u h Hn Hto Hby0 Hu0 Hh Emh. destruct (Hold _ _ Hh) as (h0 & Hh0 & E1 & E2 & E3).
      assert (Em0 := kind_done _ _ E3 Emh). news Hn.
      * destruct (K3 _ _ _ _ _ _ Hn Hto Hby0 Hu0 Hh0 Em0); [left; apply knowsA_app|right; apply knows_app]; assumption.
      * exfalso. rewrite (Hby u Hby0) in Hh0. rewrite Ht in Hh0. inversion Hh0; subst h0.
        destruct (Hacc x w Hto) as (A1 & _). revert A1. apply (nolive g MDone); simpl; auto.
    + intros n en x w u h Hn Hto Hh Hu0 Emh. destruct (Hold _ _ Hh) as (h0 & Hh0 & E1 & E2 & E3).
      assert (Em0 := kind_last _ _ E3 Emh). news Hn.
      * destruct (K4 _ _ _ _ _ _ Hn Hto Hh0 Hu0 Em0); [left|right]; apply knows_app; assumption.
      * exfalso. destruct (Hacc x w Hto) as (A1 & _). apply (ex_last _ HX u t h0 g Hh0 Em0 Ht A1).
    + intros n en x w h Pf Hn Hto Hh Emh. destruct (Hold _ _ Hh) as (h0 & Hh0 & E1 & E2 & E3).
      assert (Em0 := kind_final _ _ _ E3 Emh). news Hn.
      * apply knows_app. eapply K5; eauto.
      * exfalso. destruct (Hacc x w Hto) as (A1 & _). apply (ex_final _ HX Pf h0 t g Hh0 Em0 Ht A1).
    + apply norace_step; [exact K6|]. intros x w u n en wn Hto Hby0 Hn Hton Hw.
      rewrite (Hby u Hby0). destruct (Hacc x w Hto) as (_ & A2 & A3).
      eapply K1; eauto. destruct Hw as [Hw|Hw]; [left; auto|right; auto].
  - (* go statement *)
    assert (Hl : (t < length gs)%nat) by (eapply nth_lt; eauto).
    assert (Hnt : forall x w, ~ touches (EvGo t (length gs)) x w)
      by (intros x w [(_ & u & E)|(_ & u & E)]; discriminate).
    assert (Hold : forall u h, nth_error gs' u = Some h -> (u = t /\ h = g') \/ (u = length gs /\ h = gc) \/
              (u <> t /\ u <> length gs /\ nth_error gs u = Some h)).
    { intros u h Hh. rewrite Hu in Hh. destruct (Nat.eqb_spec u t); [left; split; congruence|].
      destruct (Nat.eqb_spec u (length gs)); [right; left; split; congruence|]. auto. }
    constructor.
    + intros n en u Hn Hby0. news Hn.
      * destruct (K0 _ _ _ Hn Hby0) as (h & Hh). rewrite Hu. destruct (Nat.eqb u t); [eauto|].
        destruct (Nat.eqb u (length gs)); eauto.
      * simpl in Hby0. subst. rewrite Hu, Nat.eqb_refl. eauto.
    + intros n en x w u h Hn Hto Hh Hor. news Hn; [|destruct (Hnt _ _ Hto)].
      destruct (Hold _ _ Hh) as [[-> ->]|[[-> ->]|(Hn1 & Hn2 & Hh0)]].
      * apply knows_app. eapply (K1 _ _ _ _ _ _ Hn Hto Ht). destruct Hor as [Hor|[Hor Hw]]; auto.
      * eapply (knows_pass _ _ t); [|reflexivity|right; eauto].
        eapply (K1 _ _ _ _ _ _ Hn Hto Ht). destruct Hor as [Hor|[Hor Hw]]; auto.
      * apply knows_app. eapply K1; eauto.
    + intros n en x w u h j Hn Hto Hh Hu0 Emh Hj. news Hn; [|destruct (Hnt _ _ Hto)].
      destruct (Hold _ _ Hh) as [[-> ->]|[[-> ->]|(Hn1 & Hn2 & Hh0)]].
      * congruence.
      * destruct Hc as [(ac & Hc)|(-> & j' & Hc & Hj')]; [congruence|].
        assert (j' = j) by congruence. subst. left. apply knows_app.
        eapply (K1 _ _ _ _ _ _ Hn Hto Ht). left; auto.
      * destruct (K2 _ _ _ _ _ _ _ Hn Hto Hh0 Hu0 Emh Hj); [left|right]; apply knows_app; assumption.
    + intros n en x w u h Hn Hto Hby0 Hu0 Hh Emh. news Hn; [|destruct (Hnt _ _ Hto)].
      destruct (Hold _ _ Hh) as [[-> ->]|[[-> ->]|(Hn1 & Hn2 & Hh0)]].
      * congruence.
      * destruct Hc as [(ac & Hc)|(-> & j' & Hc & Hj')]; congruence.
      * destruct (K3 _ _ _ _ _ _ Hn Hto Hby0 Hu0 Hh0 Emh); [left; apply knowsA_app|right; apply knows_app]; assumption.
    + intros n en x w u h Hn Hto Hh Hu0 Emh. news Hn; [|destruct (Hnt _ _ Hto)].
      destruct (Hold _ _ Hh) as [[-> ->]|[[-> ->]|(Hn1 & Hn2 & Hh0)]].
      * congruence.
      * destruct Hc as [(ac & Hc)|(-> & j' & Hc & Hj')]; congruence.
      * destruct (K4 _ _ _ _ _ _ Hn Hto Hh0 Hu0 Emh); [left|right]; apply knows_app; assumption.
    + intros n en x w h Pf Hn Hto Hh Emh. news Hn; [|destruct (Hnt _ _ Hto)].
      destruct (Hold _ _ Hh) as [[-> ->]|[[E ->]|(Hn1 & Hn2 & Hh0)]].
      * congruence.
      * lia.
      * apply knows_app. eapply K5; eauto.
    + apply norace_step; [exact K6|]. intros x w u n en wn Hto. destruct (Hnt _ _ Hto).
  - (* sign off *)
    assert (Hnt : forall x w, ~ touches (EvAtomic t) x w)
      by (intros x w [(_ & u & E)|(_ & u & E)]; discriminate).
    constructor.
    + intros n en u Hn Hby0. news Hn.
      * destruct (K0 _ _ _ Hn Hby0) as (h & Hh). rewrite Hu. destruct (Nat.eqb u t); eauto.
      * simpl in Hby0. subst. rewrite Hu, Nat.eqb_refl. eauto.
    + intros n en x w u h Hn Hto Hh Hor. news Hn; [|destruct (Hnt _ _ Hto)].
      destruct (nth_upd1 _ _ _ _ _ _ Hu Hh) as [[-> ->]|[Hne Hh']].
      * destruct Hor as [Hor|[Hor _]]; [destruct (Hnd _ Hor)|destruct (Hnr _ Hor)].
      * apply knows_app. eapply K1; eauto.
    + intros n en x w u h j Hn Hto Hh Hu0 Emh Hj. news Hn; [|destruct (Hnt _ _ Hto)].
      destruct (nth_upd1 _ _ _ _ _ _ Hu Hh) as [[-> ->]|[Hne Hh']].
      * rewrite Emh in Hm. contradiction.
      * destruct (K2 _ _ _ _ _ _ _ Hn Hto Hh' Hu0 Emh Hj); [left|right]; apply knows_app; assumption.
    + intros n en x w u h Hn Hto Hby0 Hu0 Hh Emh. news Hn; [|destruct (Hnt _ _ Hto)].
      destruct (nth_upd1 _ _ _ _ _ _ Hu Hh) as [[-> ->]|[Hne Hh']].
      * left. apply knows_publish. eapply knows_self; eauto.
      * destruct (K3 _ _ _ _ _ _ Hn Hto Hby0 Hu0 Hh' Emh); [left; apply knowsA_app|right; apply knows_app]; assumption.
    + intros n en x w u h Hn Hto Hh Hu0 Emh. news Hn; [|destruct (Hnt _ _ Hto)].
      destruct (nth_upd1 _ _ _ _ _ _ Hu Hh) as [[-> ->]|[Hne Hh']].
      * rewrite Emh in Hm.
        assert (Hd : exists v, doneBy en v) by (destruct Hto as [(_ & v & ->)|(_ & v & ->)]; exists v; reflexivity).
        destruct Hd as (v & Hd).
        destruct (Nat.eq_dec v t) as [->|Hvt]; [left; apply knows_app; eapply knows_self; eauto|].
        destruct (Nat.eq_dec v O) as [->|Hv0]; [right; apply knows_app; eapply knows_self; eauto|].
        destruct (K0 _ _ _ Hn Hd) as (hv & Hhv).
        destruct (K3 _ _ _ _ _ _ Hn Hto Hd Hv0 Hhv (Hm _ _ Hvt Hv0 Hhv)) as [Hk|Hk].
        -- left. apply knowsA_acquire; exact Hk.
        -- right. apply knows_app; exact Hk.
      * destruct (K4 _ _ _ _ _ _ Hn Hto Hh' Hu0 Emh); [left|right]; apply knows_app; assumption.
    + intros n en x w h Pf Hn Hto Hh Emh. news Hn; [|destruct (Hnt _ _ Hto)].
      destruct (nth_upd1 _ _ _ _ _ _ Hu Hh) as [[E ->]|[Hne Hh']].
      * rewrite Emh in Hm. subst t.
        assert (Hd : exists v, doneBy en v) by (destruct Hto as [(_ & v & ->)|(_ & v & ->)]; exists v; reflexivity).
        destruct Hd as (v & Hd).
        destruct (Nat.eq_dec v O) as [->|Hv0]; [apply knows_app; eapply knows_self; eauto|].
        destruct (K0 _ _ _ Hn Hd) as (hv & Hhv).
        destruct (K3 _ _ _ _ _ _ Hn Hto Hd Hv0 Hhv (Hm _ _ Hv0 Hv0 Hhv)) as [Hk|Hk].
        -- apply knowsA_acquire; exact Hk.
        -- apply knows_app; exact Hk.
      * apply knows_app. eapply K5; eauto.
    + apply norace_step; [exact K6|]. intros x w u n en wn Hto. destruct (Hnt _ _ Hto).
  - (* the caller meets its partner *)
    assert (Hnt : forall x w, ~ touches (EvComm t O) x w)
      by (intros x w [(_ & u & E)|(_ & u & E)]; discriminate).
    assert (Hold : forall u h, nth_error gs' u = Some h -> (u = O /\ h = gm') \/ (u = t /\ h = g') \/
              (u <> O /\ u <> t /\ nth_error gs u = Some h)).
    { intros u h Hh. rewrite Hu in Hh. destruct (Nat.eqb_spec u O); [left; split; congruence|].
      destruct (Nat.eqb_spec u t); [right; left; split; congruence|]. auto. }
    assert (Hpass : forall n en x w, nth_error tr n = Some en -> touches en x w -> j_D j x ->
              knows (tr ++ [EvComm t O]) O n).
    { intros n en x w Hn Hto Hj. destruct (K2 _ _ _ _ _ _ _ Hn Hto Ht Ht0 Em Hj).
      - apply knows_app; assumption.
      - eapply knows_pass; [eassumption|left; reflexivity|left; right; reflexivity]. }
    constructor.
    + intros n en u Hn Hby0. rewrite Hu. news Hn.
      * destruct (K0 _ _ _ Hn Hby0) as (h & Hh). destruct (Nat.eqb u O); [eauto|].
        destruct (Nat.eqb u t); eauto.
      * destruct Hby0 as [->| ->]; [|simpl; eauto]. rewrite Nat.eqb_refl. destruct (Nat.eqb t O); eauto.
    + intros n en x w u h Hn Hto Hh Hor. news Hn; [|destruct (Hnt _ _ Hto)].
      destruct (Hold _ _ Hh) as [[-> ->]|[[-> ->]|(Hn1 & Hn2 & Hh0)]].
      * destruct Hor as [Hor|[Hor Hw]].
        -- destruct (Hd _ Hor) as [Hx|Hx]; [|eapply Hpass; eauto]. apply knows_app. eapply K1; eauto.
        -- destruct (Hr _ Hor) as [Hx|Hx]; [|eapply Hpass; eauto]. apply knows_app. eapply K1; eauto.
      * destruct Hor as [Hor|[Hor _]]; [destruct (Hnd _ Hor)|destruct (Hnr _ Hor)].
      * apply knows_app. eapply K1; eauto.
    + intros n en x w u h j' Hn Hto Hh Hu0 Emh Hj. news Hn; [|destruct (Hnt _ _ Hto)].
      destruct (Hold _ _ Hh) as [[-> ->]|[[-> ->]|(Hn1 & Hn2 & Hh0)]]; try congruence.
      destruct (K2 _ _ _ _ _ _ _ Hn Hto Hh0 Hu0 Emh Hj); [left|right]; apply knows_app; assumption.
    + intros n en x w u h Hn Hto Hby0 Hu0 Hh Emh. news Hn; [|destruct (Hnt _ _ Hto)].
      destruct (Hold _ _ Hh) as [[-> ->]|[[-> ->]|(Hn1 & Hn2 & Hh0)]]; try congruence.
      * right. eapply knows_pass; [eapply knows_self; eauto|left; reflexivity|left; right; reflexivity].
      * destruct (K3 _ _ _ _ _ _ Hn Hto Hby0 Hu0 Hh0 Emh); [left; apply knowsA_app|right; apply knows_app]; assumption.
    + intros n en x w u h Hn Hto Hh Hu0 Emh. news Hn; [|destruct (Hnt _ _ Hto)].
      destruct (Hold _ _ Hh) as [[-> ->]|[[-> ->]|(Hn1 & Hn2 & Hh0)]]; try congruence.
      destruct (K4 _ _ _ _ _ _ Hn Hto Hh0 Hu0 Emh); [left|right]; apply knows_app; assumption.
    + intros n en x w h Pf Hn Hto Hh Emh. news Hn; [|destruct (Hnt _ _ Hto)].
      destruct (Hold _ _ Hh) as [[_ ->]|[[E ->]|(Hn1 & Hn2 & Hh0)]]; congruence.
    + apply norace_step; [exact K6|]. intros x w u n en wn Hto. destruct (Hnt _ _ Hto).
  - (* end signal *)
    assert (Hnt : forall x w, ~ touches (EvComm t O) x w)
      by (intros x w [(_ & u & E)|(_ & u & E)]; discriminate).
    assert (Hold : forall u h, nth_error gs' u = Some h -> (u = O /\ h = gm') \/ (u = t /\ h = g') \/
              (u <> O /\ u <> t /\ nth_error gs u = Some h)).
    { intros u h Hh. rewrite Hu in Hh. destruct (Nat.eqb_spec u O); [left; split; congruence|].
      destruct (Nat.eqb_spec u t); [right; left; split; congruence|]. auto. }
    assert (Hpass : forall n en x w, nth_error tr n = Some en -> touches en x w ->
              knows (tr ++ [EvComm t O]) O n).
    { intros n en x w Hn Hto. destruct (K4 _ _ _ _ _ _ Hn Hto Ht Ht0 Em).
      - eapply knows_pass; [eassumption|left; reflexivity|left; right; reflexivity].
      - apply knows_app; assumption. }
    constructor.
    + intros n en u Hn Hby0. rewrite Hu. news Hn.
      * destruct (K0 _ _ _ Hn Hby0) as (h & Hh). destruct (Nat.eqb u O); [eauto|].
        destruct (Nat.eqb u t); eauto.
      * destruct Hby0 as [->| ->]; [|simpl; eauto]. rewrite Nat.eqb_refl. destruct (Nat.eqb t O); eauto.
    + intros n en x w u h Hn Hto Hh Hor. news Hn; [|destruct (Hnt _ _ Hto)].
      destruct (Hold _ _ Hh) as [[-> ->]|[[-> ->]|(Hn1 & Hn2 & Hh0)]].
      * eapply Hpass; eauto.
      * destruct Hor as [Hor|[Hor _]]; [destruct (Hnd _ Hor)|destruct (Hnr _ Hor)].
      * apply knows_app. eapply K1; eauto.
    + intros n en x w u h j' Hn Hto Hh Hu0 Emh Hj. news Hn; [|destruct (Hnt _ _ Hto)].
      left. eapply Hpass; eauto.
    + intros n en x w u h Hn Hto Hby0 Hu0 Hh Emh. news Hn; [|destruct (Hnt _ _ Hto)].
      right. eapply Hpass; eauto.
    + intros n en x w u h Hn Hto Hh Hu0 Emh. news Hn; [|destruct (Hnt _ _ Hto)].
      right. eapply Hpass; eauto.
    + intros n en x w h Pf' Hn Hto Hh Emh. news Hn; [|destruct (Hnt _ _ Hto)].
      eapply Hpass; eauto.
    + apply norace_step; [exact K6|]. intros x w u n en wn Hto. destruct (Hnt _ _ Hto).
Qed.

(** Ownership is exclusive in every global ghost state. *)
Lemma GG_excl {Gr : grain} Fr M R0 gm pool deps s : @GG Gr T Fr M R0 gm pool deps s -> excl (gm :: pool).
Proof.
  intros [H1 H2 H3 H4 H5 H6 H7 H8].
  rewrite Forall_forall in H3, H4, H5.
  assert (Hpw : forall i j g g', i <> j -> nth_error pool i = Some g -> nth_error pool j = Some g' -> vs g g').
  { clear - H6. revert H6. induction pool as [|h l IH]; intros Hv i j g g' Hij Hi Hj.
    - destruct i; discriminate.
    - destruct Hv as [Hv1 Hv2]. rewrite Forall_forall in Hv1.
      destruct i as [|i], j as [|j]; simpl in *; try congruence.
      + inversion Hi; subst. apply Hv1. eapply nth_error_In; eauto.
      + inversion Hj; subst. apply vs_sym. apply Hv1. eapply nth_error_In; eauto.
      + eapply (IH Hv2 i j); eauto. }
  assert (Hwf : forall t g i, nth_error (gm :: pool) t = Some g -> dom g i -> rd g i).
  { intros t g i Ht Hd. destruct t as [|t]; simpl in Ht.
    - inversion Ht; subst. apply H2; exact Hd.
    - apply (H3 g); [eapply nth_error_In; eauto|exact Hd]. }
  assert (Hmodes : forall g, In g pool -> pool_ok g) by exact H4.
  assert (Hz : sumf cnt pool = 0 -> sumf part1 pool = 0 -> forall g, In g pool -> ~ live g).
  { intros Z1 Z2 g Hg Hl. apply sumf_zero in Z1; [|apply cnt_nonneg].
    apply sumf_zero in Z2; [|intro x; unfold part1; destruct (md x); lia].
    rewrite Forall_forall in Z1, Z2. specialize (Z1 g Hg). specialize (Z2 g Hg).
    specialize (H4 g Hg). unfold cnt, part1, pool_ok, live in *.
    destruct (md g); try contradiction; try lia. destruct (a_credit a); lia. }
  constructor.
  - intros t u g h i Ht Hu Hne Hd Hr. destruct t as [|t], u as [|u]; simpl in Ht, Hu.
    + congruence.
    + inversion Ht; subst. pose proof (H5 h (nth_error_In _ _ Hu)) as V. unfold vs_main in V.
      destruct (md h); try (apply (V i); [left; apply H2; exact Hd|exact Hr]).
      destruct V as (_ & _ & V & _). apply (V i); auto.
    + inversion Hu; subst. pose proof (H5 g (nth_error_In _ _ Ht)) as V. unfold vs_main in V.
      assert (Hrg : rd g i) by (apply (Hwf (S t)); auto).
      destruct (md g); try (apply (V i); [left; exact Hr|exact Hrg]).
      destruct V as (_ & _ & _ & V). apply (V i); auto.
    + assert (V : vs g h) by (apply (Hpw t u); auto). apply (V i); [|exact Hr]. apply (Hwf (S t)); auto.
  - exact Hwf.
  - intros t u g h j i Ht Em Ht0 Hu Hut Hu0 Hj Hr.
    destruct t as [|t]; [congruence|]. destruct u as [|u]; [congruence|]. simpl in Ht, Hu.
    pose proof (H5 g (nth_error_In _ _ Ht)) as V. unfold vs_main in V. rewrite Em in V.
    destruct V as (V & _). pose proof (H5 h (nth_error_In _ _ Hu)) as V'. unfold vs_main in V'.
    destruct (md h) eqn:Eh; try (apply (V' i); [right; rewrite V; exact Hj|exact Hr]).
    (* two partners are impossible *)
    unfold joined in V. unfold phase in H8. destruct (md gm) eqn:Em1; try discriminate.
    destruct (a_main a); [|contradiction]. destruct H8 as (_ & H8 & _). rewrite V in H8.
    assert (G : 2 <= sumf part1 pool).
    { clear - Ht Hu Hut Em Eh. assert (Hne : t <> u) by congruence. clear Hut. 
      assert (Hnn : forall l : list (gst T), 0 <= sumf part1 l) by (intro l; apply sumf_nonneg; intro x; unfold part1; destruct (md x); lia).
      assert (E1 : part1 g = 1) by (unfold part1; rewrite Em; reflexivity).
      assert (E2 : part1 h = 1) by (unfold part1; rewrite Eh; reflexivity).
      assert (G1 : forall (l : list (gst T)) n x, nth_error l n = Some x -> part1 x <= sumf part1 l).
      { induction l as [|y l IH]; intros [|n] x Hx; try discriminate; rewrite sumf_cons; simpl in Hx.
        - inversion Hx; subst. specialize (Hnn l). lia.
        - specialize (IH _ _ Hx). assert (0 <= part1 y) by (unfold part1; destruct (md y); lia). lia. }
      revert t u Ht Hu Hne. induction pool as [|y l IH]; intros [|t] [|u] Ht Hu Hne; try discriminate; try congruence;
        rewrite sumf_cons; simpl in Ht, Hu.
      - inversion Ht; subst. apply G1 in Hu. lia.
      - inversion Hu; subst. apply G1 in Ht. lia.
      - assert (0 <= part1 y) by (unfold part1; destruct (md y); lia).
        specialize (IH t u Ht Hu ltac:(congruence)). lia. }
    lia.
  - intros t u g h Ht Em Hu Hl. 
    assert (Hgp : In g pool).
    { destruct t as [|t]; [|eapply nth_error_In; exact Ht]. simpl in Ht. inversion Ht; subst.
      unfold phase in H8. rewrite Em in H8. contradiction. }
    assert (L1 : 1 <= sumf last1 pool).
    { destruct (in_split _ _ Hgp) as (p1 & p2 & ->). rewrite sumf_app, sumf_cons.
      assert (last1 g = 1) by (unfold last1; rewrite Em; reflexivity).
      pose proof (sumf_nonneg last1 p1 last1_nonneg). pose proof (sumf_nonneg last1 p2 last1_nonneg). lia. }
    unfold phase in H8. destruct (md gm) eqn:Egm; try contradiction.
    + destruct H8 as (-> & _). destruct Hgp.
    + destruct H8 as (-> & _). destruct Hgp.
    + destruct (a_main a); [|contradiction]. destruct H8 as (_ & _ & H8). lia.
    + destruct H8 as ((C1 & _) & Hp & Hla).
      destruct u as [|u]; simpl in Hu.
      * inversion Hu; subst. unfold live in Hl. rewrite Egm in Hl. exact Hl.
      * revert Hl. apply Hz; auto; [|eapply nth_error_In; eauto].
        destruct (Z.eqb_spec (ngor s) 0) as [E|E]; [|lia]. rewrite sumf_cons in C1.
        pose proof (cnt_nonneg gm). pose proof (sumf_nonneg cnt pool cnt_nonneg). lia.
    + destruct H8 as (HF & _). rewrite Forall_forall in HF. rewrite (HF g Hgp) in Em. discriminate.
  - intros Pf g u h Hg Em Hu Hl. simpl in Hg. inversion Hg; subst g.
    unfold phase in H8. rewrite Em in H8. destruct H8 as (HF & _). rewrite Forall_forall in HF.
    destruct u as [|u]; simpl in Hu.
    + inversion Hu; subst. unfold live in Hl. rewrite Em in Hl. exact Hl.
    + unfold live in Hl. rewrite (HF h (nth_error_In _ _ Hu)) in Hl. exact Hl.
Qed.

End Ghosts.

(** ** The call and its surroundings *)

Lemma nth_shift {X} (l1 l2 : list X) i : nth_error (l1 ++ l2) (length l1 + i) = nth_error l2 i.
Proof. rewrite nth_error_app2 by lia. f_equal. lia. Qed.

Lemma nth_in1 {X} (l1 l2 : list X) i y : nth_error l1 i = Some y -> nth_error (l1 ++ l2) i = Some y.
Proof. intro H. rewrite nth_error_app1; [exact H|]. apply nth_error_Some. congruence. Qed.

Lemma hb_embed pre tr post i j : hb tr i j -> hb (pre ++ tr ++ post) (length pre + i) (length pre + j).
Proof.
  induction 1.
  - eapply hb_program; [|rewrite nth_shift; apply nth_in1; eassumption..|eassumption|eassumption]. lia.
  - eapply hb_go; [|rewrite nth_shift; apply nth_in1; eassumption..|eassumption]. lia.
  - eapply hb_atomic; [|rewrite nth_shift; apply nth_in1; eassumption..]. lia.
  - eapply hb_trans; eassumption.
Qed.

(** Every goroutine other than the caller was started in the call. *)
Lemma all_started {P T R} (body : P -> cmd P T unit) M Rg (c0 : cmd P T R) m0 mg0 tr s :
  texec body M Rg tr (start c0 m0 mg0) s ->
  (forall t, (0 < t <= length (thr s))%nat -> exists j p, nth_error tr j = Some (EvGo p t)) /\
  forall n e t, nth_error tr n = Some e -> doneBy e t ->
  t = O \/ exists j p, (j < n)%nat /\ nth_error tr j = Some (EvGo p t).
Proof.
  intro H. remember (start c0 m0 mg0) as s0 eqn:E.
  induction H; subst.
  - split; [simpl; lia|]. intros n e t Hn. destruct n; discriminate.
  - destruct (IHtexec eq_refl) as [IH1 IH2]. clear IHtexec.
    assert (Old : forall t, (0 < t <= length (thr s1))%nat -> exists j p,
      (j < length tr)%nat /\ nth_error (tr ++ [e]) j = Some (EvGo p t)).
    { intros t Ht. destruct (IH1 t Ht) as (j & p & Hj). exists j, p.
      split; [eapply nth_lt; exact Hj|apply nth_app_old; exact Hj]. }
    assert (Who : (forall t, doneBy e t -> (t <= length (thr s1))%nat) /\
      (length (thr s2) = length (thr s1) \/
       (length (thr s2) = S (length (thr s1)) /\ exists p, e = EvGo p (S (length (thr s1)))))).
    { assert (Loc : forall A (c : cmd P T A) (s : shared T) c' s' fs, exec_local body c s = Some (c', s', fs) ->
        forall t n, (forall u, doneBy (label t n c) u -> u = t) /\
          (fs = [] \/ (exists x, fs = [x]) /\ exists p, label t n c = EvGo p (S n))).
      { intros A c s c' s' fs He t n. unfold exec_local in He. unfold label.
        destruct (view c); inversion He; subst; simpl; split; eauto. }
      destruct H0; simpl; rewrite ?app_length; simpl.
      - destruct (Loc _ _ _ _ _ _ H0 O (length ts)) as [L1 L2]. split.
        + intros t Ht. rewrite (L1 t Ht). lia.
        + destruct L2 as [->|((x & ->) & p & ->)]; [left; simpl; lia|right; split; [simpl; lia|eauto]].
      - destruct (Loc _ _ _ _ _ _ H0 (S (length l1)) (length (l1 ++ c :: l2))) as [L1 L2].
        rewrite app_length in L1, L2; simpl in L1, L2. rewrite app_length. split.
        + intros t Ht. rewrite (L1 t Ht). lia.
        + destruct L2 as [->|((x & ->) & p & ->)]; [left; simpl; lia|right; split; [simpl; lia|eauto]].
      - split; [intros t [->| ->]; lia|left; reflexivity].
      - split; [intros t [->| ->]; lia|left; reflexivity].
      - rewrite !app_length; simpl. split; [intros t [->| ->]; lia|left; reflexivity].
      - rewrite !app_length; simpl. split; [intros t [->| ->]; lia|left; reflexivity].
      - split; [intros t ->; lia|left; reflexivity].
      - split; [intros t ->; lia|left; reflexivity]. }
    destruct Who as [W1 W2]. split.
    + intros t Ht. destruct W2 as [W2|(W2 & p & We)].
      * destruct (Old t ltac:(lia)) as (j & p & _ & Hj). eauto.
      * destruct (Nat.eq_dec t (S (length (thr s1)))) as [->|Hne].
        -- exists (length tr), p. rewrite <- We. apply nth_app_new.
        -- destruct (Old t ltac:(lia)) as (j & q & _ & Hj). eauto.
    + intros n ev t Hn Hd. apply nth_app_inv in Hn. destruct Hn as [Hn|[-> ->]].
      * destruct (IH2 n ev t Hn Hd) as [->|(j & p & Hj & Hp)]; [left; reflexivity|right].
        exists j, p. split; [exact Hj|apply nth_app_old; exact Hp].
      * specialize (W1 t Hd). destruct t as [|t]; [left; reflexivity|right].
        destruct (Old (S t) ltac:(lia)) as (j & p & Hj). eauto.
  - destruct (IHtexec eq_refl) as [IH1 IH2]. split; [|exact IH2]. destruct H0. exact IH1.
Qed.

Lemma caller_nth l i e : callerOnly l -> nth_error l i = Some e -> forall t, doneBy e t -> t = O.
Proof. intros H Hn. unfold callerOnly in H. rewrite Forall_forall in H. apply H. eapply nth_error_In; eauto. Qed.

Lemma some_doer e : exists t, doneBy e t.
Proof. destruct e; simpl; eauto. Qed.

Lemma before_all pre tr post : callerOnly pre ->
  (forall n e t, nth_error tr n = Some e -> doneBy e t ->
     t = O \/ exists j p, (j < n)%nat /\ nth_error tr j = Some (EvGo p t)) ->
  forall i ei, nth_error pre i = Some ei ->
  forall n e, nth_error tr n = Some e -> hb (pre ++ tr ++ post) i (length pre + n).
Proof.
  intros Hpre Hst i ei Hi n. induction n as [n IH] using lt_wf_ind. intros e Hn.
  destruct (some_doer e) as (t & Ht). assert (Li := nth_lt _ _ _ Hi).
  destruct (Hst n e t Hn Ht) as [->|(j & p & Hj & Hp)].
  - destruct (some_doer ei) as (t0 & Ht0). assert (t0 = O) by (eapply caller_nth; eauto). subst t0.
    eapply hb_program; [|apply nth_in1; exact Hi|rewrite nth_shift; apply nth_in1; exact Hn|exact Ht0|exact Ht]. lia.
  - eapply hb_trans; [eapply (IH j Hj); exact Hp|].
    eapply hb_go; [|rewrite nth_shift; apply nth_in1; eassumption..|exact Ht]. lia.
Qed.

Lemma norace_embed pre tr post : callerOnly pre -> callerOnly post -> ~ dataRace tr ->
  (forall n e t, nth_error tr n = Some e -> doneBy e t ->
     t = O \/ exists j p, (j < n)%nat /\ nth_error tr j = Some (EvGo p t)) ->
  (post <> [] -> forall n e x w, nth_error tr n = Some e -> touches e x w -> knows tr O n) ->
  ~ dataRace (pre ++ tr ++ post).
Proof.
  intros Hpre Hpost Hno Hst Hkn (i & j & ei & ej & x & wi & wj & Hij & Hi & Hj & Ti & Tj & Hw & Hhb).
  assert (Di : exists t, doneBy ei t) by apply some_doer. assert (Dj : exists t, doneBy ej t) by apply some_doer.
  destruct Di as (ti & Di), Dj as (tj & Dj).
  assert (Cases : forall n e, nth_error (pre ++ tr ++ post) n = Some e ->
    nth_error pre n = Some e \/ (exists m, n = (length pre + m)%nat /\ nth_error tr m = Some e) \/
    (exists m, n = (length pre + length tr + m)%nat /\ nth_error post m = Some e)).
  { intros n e Hn. destruct (Nat.lt_ge_cases n (length pre)) as [L|L].
    - left. rewrite nth_error_app1 in Hn by exact L. exact Hn.
    - right. rewrite nth_error_app2 in Hn by exact L.
      destruct (Nat.lt_ge_cases (n - length pre) (length tr)) as [L2|L2].
      + left. exists (n - length pre)%nat. rewrite nth_error_app1 in Hn by exact L2. split; [lia|exact Hn].
      + right. exists (n - length pre - length tr)%nat. rewrite nth_error_app2 in Hn by exact L2. split; [lia|exact Hn]. }
  assert (Both : ti = O -> tj = O -> False).
  { intros -> ->. apply Hhb. eapply hb_program; eauto. }
  destruct (Cases _ _ Hi) as [Ci|[(mi & -> & Ci)|(mi & -> & Ci)]];
    destruct (Cases _ _ Hj) as [Cj|[(mj & -> & Cj)|(mj & -> & Cj)]];
    try (apply nth_lt in Ci; apply nth_lt in Cj; lia);
    try (exfalso; apply Both; [eapply (caller_nth _ _ ei); [|exact Ci|exact Di]|eapply (caller_nth _ _ ej); [|exact Cj|exact Dj]];
         assumption).
  - apply Hhb. eapply before_all; eauto.
  - apply Hno. exists mi, mj, ei, ej, x, wi, wj. repeat (split; [solve [eauto|lia]|]).
    intro Hb. apply Hhb. apply hb_embed. exact Hb.
  - assert (Hne : post <> []) by (intros ->; destruct mj; discriminate).
    assert (tj = O) by (eapply caller_nth; [exact Hpost|exact Cj|exact Dj]). subst tj.
    destruct (Hkn Hne mi ei x wi Ci Ti) as (n & en & Hn & Hd & Hbe).
    assert (Hd0 : doneBy en O \/ exists p, en = EvGo p O) by exact Hd.
    apply Hhb. assert (Ln := nth_lt _ _ _ Hn).
    assert (Last : hb (pre ++ tr ++ post) (length pre + n) (length pre + length tr + mj)).
    { destruct Hd0 as [Hd0|(p & ->)].
      - eapply hb_program; [|rewrite nth_shift; apply nth_in1; exact Hn|exact Hj|exact Hd0|exact Dj]. lia.
      - eapply hb_go; [|rewrite nth_shift; apply nth_in1; exact Hn|exact Hj|exact Dj]. lia. }
    destruct Hbe as [->|Hbe]; [exact Last|]. eapply hb_trans; [apply hb_embed; exact Hbe|exact Last].
Qed.
