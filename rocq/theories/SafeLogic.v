(** * Step-indexed logic for programs that need not terminate

    [sp m D Q c g]: for [m] steps program [c], run by a goroutine in ghost state [g]
    (see [ConcLogic.v]), does nothing wrong, and if it finishes within these steps then
    [Q result (final ghost state)] holds.  The rules are those of [ConcLogic.v] without
    the step credits. *)

From Coq Require Import List ZArith Lia Bool.
From Verif Require Import Lang SeqLogic ConcLogic.
Import ListNotations.
Open Scope Z_scope.

Definition QTS {T} : unit -> gst T -> Prop := fun _ g => md g = MDone.

Section Safe.
Context {Gr : grain}.
Context {P T : Type}.
Variable body : P -> cmd P T unit.
Variable Dm : nat.                      (* call depth of started goroutines *)

Fixpoint sp (m : nat) {A : Type} (D : nat) (Q : A -> gst T -> Prop)
  (c : cmd P T A) (g : gst T) {struct m} : Prop :=
  match m with
  | O => True
  | S m' =>
    (depth c <= D)%nat /\
    match view c with
    | HRet a => Q a g
    | HPanic => False
    | HTau c' => sp m' D Q c' g
    | HRead i k => live g /\ rd g i /\ sp m' D Q (k (val g i)) g
    | HWrite i x k => live g /\ dom g i /\ sp m' D Q k (setval g (upd (val g) i x))
    | HCall p k => live g /\ sp m' D Q (k (body p)) g
    | HLoadMax k => live g /\ forall x, 0 <= x -> sp m' D Q (k x) (setseen g x)
    | HLoadGor k => exists a, md g = MAct a /\ a_credit a = false /\ a_join a = None /\
        forall z, sp m' D Q (k z) (setmd g (MAct (settok a (z <? seen g))))
    | HMakeSv k => exists Pr, md g = MInit /\ 1 < seen g /\ many (dom g) /\
        sp m' D Q k (setmd g (MAct (Act (Some Pr) Pr false true None)))
    | HAddGor d k =>
        (d = 1 /\ exists a, md g = MAct a /\ a_credit a = false /\ a_tok a = true /\
           a_join a = None /\ twice (dom g) /\
           forall z, sp m' D Q (k z) (setmd g (MAct (setcredit a)))) \/
        (d = two64 - 1 /\ exists a, md g = MAct a /\ a_credit a = false /\ a_join a = None /\
           (forall w, agrees g w -> a_P a w) /\
           forall z, 0 <= z -> sp m' D Q (k z) (noown g (signed_off a z)))
    | HFork p k =>
        (exists a (d1 : cells) (P1 P2 : promise T), md g = MAct a /\ a_credit a = true /\
           a_join a = None /\
           (forall i, d1 i -> dom g i) /\ many d1 /\ many (minus (dom g) d1) /\
           (forall w, P1 w -> P2 w -> a_P a w) /\
           sp m' Dm QTS (body p) (Gst d1 d1 (val g) (MAct (Act None P1 false false None)) 0) /\
           sp m' D Q k (Gst (minus (dom g) d1) (minus (rd g) d1) (val g) (MAct (forked a P2)) (seen g))) \/
        (exists a (dj d2 r2 : cells) post, md g = MAct a /\ a_main a <> None /\
           a_credit a = false /\ a_tok a = true /\ a_join a = None /\
           (forall i, dj i -> dom g i) /\ (forall i, d2 i -> r2 i) /\ (forall i, r2 i -> dj i) /\
           twice (dom g) /\ (forall i, dj i \/ ~ dj i) /\
           sp m' Dm QTS (body p) (Gst d2 r2 (val g) (MPart (Join dj post)) 0) /\
           sp m' D Q k (Gst (minus (dom g) dj) (minus (rd g) d2) (val g)
                            (MAct (setjoin a (Some (Join dj post)))) (seen g)))
    | HSend v k =>
        (exists j, md g = MPart j /\ (forall w, agrees g w -> j_post j v w) /\
           sp m' D Q k (noown g MDone)) \/
        (md g = MLast /\ sp m' D Q k (noown g MDone))
    | HRecv k =>
        (exists a j, md g = MAct a /\ a_join a = Some j /\
           forall v w, agrees g w -> j_post j v w ->
             sp m' D Q (k v) (Gst (union (dom g) (j_D j)) (union (rd g) (j_D j)) w
                                  (MAct (setjoin a None)) (seen g))) \/
        (exists Pf, md g = MWait Pf /\ forall v, sp m' D Q (k v) (setmd g (MFinal Pf)))
    end
  end.

(** What the terminating logic proves holds in this one. *)
Lemma wp_sp m : forall {A} D (Q : A -> nat -> gst T -> Prop) (Q' : A -> gst T -> Prop) n c g,
  (forall a n' g', Q a n' g' -> Q' a g') ->
  wp body (wpT body Dm) D Q n c g -> sp m D Q' c g.
Proof.
  induction m as [|m IH]; intros A D Q Q' n c g HQ HW; [exact I|].
  assert (HT : forall n c g, wpT body Dm n c g -> sp m Dm QTS c g).
  { intros n0 c0 g0 [H]. eapply IH; [|exact H]. intros a n' g' Hq. exact Hq. }
  destruct HW as [a Hd Hv Hq|n' c' Hd Hv En HW|n' i k0 Hd Hv En Hl Hi HW|n' i x k0 Hd Hv En Hl Hi HW
    |n' p k0 Hd Hv En Hl HW|n' k0 Hd Hv En Hl HW|n' k0 a Hd Hv En Em Ec Ej HW|n' k0 Pr Hd Hv En Em Hs Hne HW
    |n' k0 a Hd Hv En Em Ec Et Ej H2 HW|n' k0 a Hd Hv En Em Ec Ej HPr HW
    |n' p k0 a d1 P1 P2 n1 n2 Hd Hv En Em Ec Ej Hd1 Hn1 Hn2 HPr Hnn HWc HW
    |n' p k0 a dj d2 r2 post n1 n2 Hd Hv En Em Ea Ec Et Ej Hdj Hd2 Hr2 Hne Hdec Hnn HWc HW
    |n' v k0 j Hd Hv En Em HPr HW|n' v k0 Hd Hv En Em HW
    |n' k0 a j Hd Hv En Em Ej HW|n' k0 Pf Hd Hv En Em HW];
    split; try exact Hd; rewrite Hv.
  - eapply HQ; eauto.
  - eapply IH; eauto.
  - eauto 6.
  - eauto 6.
  - eauto 6.
  - split; [exact Hl|]. intros z Hz. eapply IH; eauto.
  - exists a. repeat (split; [assumption|]). intro z. eapply IH; [exact HQ|apply HW].
  - exists Pr. repeat (split; [assumption|]). eapply IH; [exact HQ|apply HW].
  - left. split; [reflexivity|]. exists a. repeat (split; [assumption|]). intro z. eapply IH; [exact HQ|apply HW].
  - right. split; [reflexivity|]. exists a. repeat (split; [assumption|]). intros z Hz.
    eapply IH; [exact HQ|apply HW; exact Hz].
  - left. exists a, d1, P1, P2. repeat (split; [assumption|]). split; [eapply HT; exact HWc|].
    eapply IH; [exact HQ|exact HW].
  - right. exists a, dj, d2, r2, post. repeat (split; [assumption|]). split; [eapply HT; exact HWc|].
    eapply IH; [exact HQ|exact HW].
  - left. exists j. repeat (split; [assumption|]). eapply IH; [exact HQ|exact HW].
  - right. split; [assumption|]. eapply IH; [exact HQ|exact HW].
  - left. exists a, j. repeat (split; [assumption|]). intros v w Hw Hp.
    eapply IH; [exact HQ|apply HW; assumption].
  - right. exists Pf. split; [assumption|]. intro v. eapply IH; [exact HQ|apply HW].
Qed.

(** Fewer steps. *)
Lemma sp_down m : forall {A} D (Q : A -> gst T -> Prop) c g, sp (S m) D Q c g -> sp m D Q c g.
Proof.
  induction m as [|m IH]; intros A D Q c g H; [exact I|].
  remember (S m) as m1 eqn:E1. destruct H as [Hd H]. rewrite E1. clear E1. rename IH into IHa.
  split; [exact Hd|]. destruct (view c).
  - exact H.
  - exact H.
  - apply IHa; exact H.
  - intuition.
  - intuition.
  - intuition.
  - destruct H as [H|H]; [left|right].
    + destruct H as (a & d1 & P1 & P2 & H). exists a, d1, P1, P2. intuition.
    + destruct H as (a & dj & d2 & r2 & post & H). exists a, dj, d2, r2, post. intuition.
  - intuition.
  - destruct H as (a & H). exists a. intuition.
  - destruct H as [(E & a & H)|(E & a & H)]; [left|right]; (split; [exact E|]); exists a; intuition.
  - destruct H as (Pr & H). exists Pr. intuition.
  - destruct H as [(j & H)|H]; [left; exists j|right]; intuition.
  - destruct H as [(a & j & H)|(Pf & H)]; [left; exists a, j|right; exists Pf]; intuition.
Qed.

Lemma sp_le m m' {A} D (Q : A -> gst T -> Prop) c g : (m' <= m)%nat -> sp m D Q c g -> sp m' D Q c g.
Proof. induction 1; auto. intro H1. apply IHle. apply sp_down. exact H1. Qed.

(** [ctx] is an evaluation context. *)
Lemma sp_ctx m : forall {A B} D D1 (Q1 : B -> gst T -> Prop) (Q : A -> gst T -> Prop)
  (ctx : cmd P T B -> cmd P T A) c g,
  (forall c, (depth c <= D1)%nat -> (depth (ctx c) <= D)%nat) ->
  (forall c, match view c with HRet _ => True | h => view (ctx c) = hcont ctx h end) ->
  (forall b c g' m', (S m' <= m)%nat -> (depth c <= D1)%nat -> view c = HRet b -> Q1 b g' -> sp (S m') D Q (ctx c) g') ->
  sp m D1 Q1 c g -> sp m D Q (ctx c) g.
Proof.
  induction m as [|m IH]; intros A B D D1 Q1 Q ctx c g HD HC HR H; [exact I|].
  destruct H as [Hd H].
  assert (IHc : forall c g, sp m D1 Q1 c g -> sp m D Q (ctx c) g).
  { intros c1 g1 H1. eapply IH; eauto. }
  assert (HCc := HC c). assert (HRc := HR). destruct (view c) eqn:Ev.
  - eapply HRc; eauto.
  - contradiction.
  - split; [auto|]. rewrite HCc. cbn [hcont]. apply IHc; exact H.
  - split; [auto|]. rewrite HCc. cbn [hcont]. intuition.
  - split; [auto|]. rewrite HCc. cbn [hcont]. intuition.
  - split; [auto|]. rewrite HCc. cbn [hcont]. intuition.
  - split; [auto|]. rewrite HCc. cbn [hcont]. destruct H as [H|H]; [left|right].
    + destruct H as (a & d1 & P1 & P2 & H). exists a, d1, P1, P2. intuition.
    + destruct H as (a & dj & d2 & r2 & post & H). exists a, dj, d2, r2, post. intuition.
  - split; [auto|]. rewrite HCc. cbn [hcont]. intuition.
  - split; [auto|]. rewrite HCc. cbn [hcont]. destruct H as (a & H). exists a. intuition.
  - split; [auto|]. rewrite HCc. cbn [hcont].
    destruct H as [(E & a & H)|(E & a & H)]; [left|right]; (split; [exact E|]); exists a; intuition.
  - split; [auto|]. rewrite HCc. cbn [hcont]. destruct H as (Pr & H). exists Pr. intuition.
  - split; [auto|]. rewrite HCc. cbn [hcont].
    destruct H as [(j & H)|H]; [left; exists j|right]; intuition.
  - split; [auto|]. rewrite HCc. cbn [hcont].
    destruct H as [(a & j & H)|(Pf & H)]; [left; exists a, j|right; exists Pf]; intuition.
Qed.

Lemma sp_ret m D {A} (Q : A -> gst T -> Prop) a g : Q a g -> sp m D Q (Ret a) g.
Proof. intro H. destruct m; [exact I|]. split; [simpl; lia|exact H]. Qed.

(** A program with the head of another one. *)
Lemma sp_head m D D' {A} (Q : A -> gst T -> Prop) c c' g :
  view c = view c' -> (depth c <= D)%nat -> D = D' -> sp m D' Q c' g -> sp m D Q c g.
Proof.
  intros Hv Hd <- H. destruct m as [|m]; [exact I|]. destruct H as [_ H]. split; [exact Hd|].
  rewrite Hv. exact H.
Qed.

Lemma sp_bind m D {A B} (Q : A -> gst T -> Prop) (c : cmd P T B) k g (Q1 : B -> gst T -> Prop) :
  sp m D Q1 c g -> (forall b g' m', (m' <= m)%nat -> Q1 b g' -> sp m' D Q (k b) g') ->
  sp m D Q (Bind c k) g.
Proof.
  intros H HK. revert H.
  apply (sp_ctx m D D Q1 Q (fun c => Bind c k)).
  - simpl; auto.
  - intro c0. simpl. destruct (view c0); auto.
  - intros b c0 g' m' Hm Hd Hv Hq. eapply sp_head; [|exact Hd|reflexivity|apply HK; [exact Hm|exact Hq]].
    simpl. rewrite Hv. reflexivity.
Qed.

Lemma sp_conseq m D1 D {A} (Q1 Q : A -> gst T -> Prop) c g :
  sp m D1 Q1 c g -> (D1 <= D)%nat -> (forall a g', Q1 a g' -> Q a g') -> sp m D Q c g.
Proof.
  intros H HD HQ. revert H.
  apply (sp_ctx m D D1 Q1 Q (fun c => c)).
  - intros; lia.
  - intro c0. destruct (view c0); auto.
  - intros b c0 g' m' Hm Hd Hv Hq. split; [lia|]. rewrite Hv. auto.
Qed.

Lemma sp_incall m D {A} (Q : A -> gst T -> Prop) c k g (Q1 : unit -> gst T -> Prop) :
  sp m D Q1 c g -> (forall g' m', (m' <= m)%nat -> Q1 tt g' -> sp m' (S D) Q k g') ->
  sp m (S D) Q (InCall c k) g.
Proof.
  intros H HK. revert H.
  apply (sp_ctx m (S D) D Q1 Q (fun c => InCall c k)).
  - simpl; intros; lia.
  - intro c0. simpl. destruct (view c0); auto.
  - intros [] c0 g' m' Hm Hd Hv Hq. split; [simpl; lia|]. simpl. rewrite Hv.
    apply HK; [lia|exact Hq].
Qed.

(** A call: the callee runs one step later, so its specification may be the one being
    proved, for fewer steps. *)
Lemma sp_call m D {A} (Q : A -> gst T -> Prop) p k g (Q1 : unit -> gst T -> Prop) :
  (0 < D)%nat -> live g -> (forall m', (m' < m)%nat -> sp m' (D - 1) Q1 (body p) g) ->
  (forall g' m', (m' < m)%nat -> Q1 tt g' -> sp m' D Q k g') ->
  sp m D Q (Call p k) g.
Proof.
  intros HD Hl HB HK. destruct m as [|m]; [exact I|]. split; [simpl; lia|]. simpl. split; [exact Hl|].
  destruct D as [|D]; [lia|]. eapply sp_incall; [replace D with (S D - 1)%nat by lia; apply HB; lia|].
  intros g' m' Hm Hq. apply HK; [lia|exact Hq].
Qed.

Lemma sp_loop m D {A S} (Inv : S -> gst T -> Prop) (Q : A -> gst T -> Prop) (bd : S -> cmd P T (S + A)) :
  (forall s g m', (m' < m)%nat -> Inv s g ->
     sp m' D (fun r g' => match r with inl s' => Inv s' g' | inr a => Q a g' end) (bd s) g) ->
  forall s g, Inv s g -> sp m D Q (Loop s bd) g.
Proof.
  induction m as [|m IH]; intros HB s g HI; [exact I|]. split; [simpl; lia|]. simpl.
  eapply sp_bind; [apply HB; [lia|exact HI]|].
  intros [s'|a] g' m' Hm Hq; [|apply sp_ret; exact Hq].
  apply (sp_le m); [exact Hm|]. apply IH; [|exact Hq].
  intros. apply HB; [lia|assumption].
Qed.

End Safe.

(** Terminating sequential code inside a goroutine. *)
Lemma sp_seq {Gr : grain} {P T} (body : P -> cmd P T unit) (Dm : nat) m D1 D {A} n (R1 W1 : cells) (Q1 : A -> nat -> (Z -> T) -> Prop) (Q : A -> gst T -> Prop) c g :
  live g -> swp body D1 n R1 W1 Q1 c (val g) -> (D1 <= D)%nat ->
  (forall i, R1 i -> rd g i) -> (forall i, W1 i -> dom g i) ->
  (forall a j v', Q1 a j v' -> (forall i, ~ W1 i -> v' i = val g i) -> Q a (setval g v')) ->
  sp body Dm m D Q c g.
Proof.
  intros Hl H HD HR HW HQ. change (sp (Gr := Grain gr false) body Dm m D Q c g).
  eapply (wp_sp (Gr := Grain gr false) body Dm m D (fun a _ g' => Q a g') Q n); [auto|].
  eapply (wp_seq (Gr := Grain gr false) body (wpT body Dm) D (fun a j v' => Q1 a j v' /\ forall i, ~ W1 i -> v' i = val g i)); [exact Hl| |].
  - eapply swp_use; [apply swp_frame; exact H|exact HD|apply le_n|exact HR|split; [auto|reflexivity]|].
    intros a j v' _ [H1 H2]. replace (j + (n - n))%nat with j by lia. split; assumption.
  - intros a j v' _ [H1 H2]. eapply HQ; eassumption.
Qed.


(** Postcondition of the caller. *)
Definition QMS {T A} (Post : A -> (Z -> T) -> Prop) : A -> gst T -> Prop := fun r g => QM Post r O g.
