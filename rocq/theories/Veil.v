(** * Step-indexed logic for programs whose reads deliver anything

    As [SafeLogic.v], but what a read of an element delivers is arbitrary and nothing is
    known about the elements: [vp m D Q c g] says that for [m] steps program [c], whatever
    values its reads deliver, only reads elements it may read and only writes elements it
    owns, and keeps to the protocol of the counter, the goroutines and the channel.  The
    ghost states are those of [ConcLogic.v] over elements without content. *)

From Coq Require Import List ZArith Lia Bool.
From Verif Require Import Lang SeqLogic ConcLogic SafeLogic.
Import ListNotations.
Open Scope Z_scope.

Section Veil.
Context {Gr : grain}.
Context {P T : Type}.
Variable body : P -> cmd P T unit.
Variable Dm : nat.                      (* call depth of started goroutines *)

Fixpoint vp (m : nat) {A : Type} (D : nat) (Q : A -> gst unit -> Prop)
  (c : cmd P T A) (g : gst unit) {struct m} : Prop :=
  match m with
  | O => True
  | S m' =>
    (depth c <= D)%nat /\
    match view c with
    | HRet a => Q a g
    | HPanic => False
    | HTau c' => vp m' D Q c' g
    | HRead i k => live g /\ rd g i /\ forall v, vp m' D Q (k v) g
    | HWrite i x k => live g /\ dom g i /\ vp m' D Q k g
    | HCall p k => live g /\ vp m' D Q (k (body p)) g
    | HLoadMax k => live g /\ forall x, 0 <= x -> vp m' D Q (k x) (setseen g x)
    | HLoadGor k => exists a, md g = MAct a /\ a_credit a = false /\ a_join a = None /\
        forall z, vp m' D Q (k z) (setmd g (MAct (settok a (z <? seen g))))
    | HMakeSv k => exists Pr, md g = MInit /\ 1 < seen g /\ many (dom g) /\
        vp m' D Q k (setmd g (MAct (Act (Some Pr) Pr false true None)))
    | HAddGor d k =>
        (d = 1 /\ exists a, md g = MAct a /\ a_credit a = false /\ a_tok a = true /\
           a_join a = None /\ twice (dom g) /\
           forall z, vp m' D Q (k z) (setmd g (MAct (setcredit a)))) \/
        (d = two64 - 1 /\ exists a, md g = MAct a /\ a_credit a = false /\ a_join a = None /\
           (forall w, agrees g w -> a_P a w) /\
           forall z, 0 <= z -> vp m' D Q (k z) (noown g (signed_off a z)))
    | HFork p k =>
        (exists a (d1 : cells) (P1 P2 : promise unit), md g = MAct a /\ a_credit a = true /\
           a_join a = None /\
           (forall i, d1 i -> dom g i) /\ many d1 /\ many (minus (dom g) d1) /\
           (forall w, P1 w -> P2 w -> a_P a w) /\
           vp m' Dm QTS (body p) (Gst d1 d1 (val g) (MAct (Act None P1 false false None)) 0) /\
           vp m' D Q k (Gst (minus (dom g) d1) (minus (rd g) d1) (val g) (MAct (forked a P2)) (seen g))) \/
        (exists a (dj d2 r2 : cells) post, md g = MAct a /\ a_main a <> None /\
           a_credit a = false /\ a_tok a = true /\ a_join a = None /\
           (forall i, dj i -> dom g i) /\ (forall i, d2 i -> r2 i) /\ (forall i, r2 i -> dj i) /\
           twice (dom g) /\ (forall i, dj i \/ ~ dj i) /\
           vp m' Dm QTS (body p) (Gst d2 r2 (val g) (MPart (Join dj post)) 0) /\
           vp m' D Q k (Gst (minus (dom g) dj) (minus (rd g) d2) (val g)
                            (MAct (setjoin a (Some (Join dj post)))) (seen g)))
    | HSend v k =>
        (exists j, md g = MPart j /\ (forall w, agrees g w -> j_post j v w) /\
           vp m' D Q k (noown g MDone)) \/
        (md g = MLast /\ vp m' D Q k (noown g MDone))
    | HRecv k =>
        (exists a j, md g = MAct a /\ a_join a = Some j /\
           forall v w, agrees g w -> j_post j v w ->
             vp m' D Q (k v) (Gst (union (dom g) (j_D j)) (union (rd g) (j_D j)) w
                                  (MAct (setjoin a None)) (seen g))) \/
        (exists Pf, md g = MWait Pf /\ forall v, vp m' D Q (k v) (setmd g (MFinal Pf)))
    end
  end.

(** Fewer steps. *)
Lemma vp_down m : forall {A} D (Q : A -> gst unit -> Prop) c g, vp (S m) D Q c g -> vp m D Q c g.
Proof.
  induction m as [|m IH]; intros A D Q c g H; [exact I|].
  remember (S m) as m1 eqn:E1. destruct H as [Hd H]. rewrite E1. clear E1. rename IH into IHa.
  split; [exact Hd|]. destruct (view c).
  - exact H.
  - exact H.
  - apply IHa; exact H.
  - intuition.
  - intuition.
  - intuition.
  - destruct H as [H|H]; [left|right].
    + destruct H as (a & d1 & P1 & P2 & H). exists a, d1, P1, P2. intuition.
    + destruct H as (a & dj & d2 & r2 & post & H). exists a, dj, d2, r2, post. intuition.
  - intuition.
  - destruct H as (a & H). exists a. intuition.
  - destruct H as [(E & a & H)|(E & a & H)]; [left|right]; (split; [exact E|]); exists a; intuition.
  - destruct H as (Pr & H). exists Pr. intuition.
  - destruct H as [(j & H)|H]; [left; exists j|right]; intuition.
  - destruct H as [(a & j & H)|(Pf & H)]; [left; exists a, j|right; exists Pf]; intuition.
Qed.

Lemma vp_le m m' {A} D (Q : A -> gst unit -> Prop) c g : (m' <= m)%nat -> vp m D Q c g -> vp m' D Q c g.
Proof. induction 1; auto. intro H1. apply IHle. apply vp_down. exact H1. Qed.

(** [ctx] is an evaluation context. *)
Lemma vp_ctx m : forall {A B} D D1 (Q1 : B -> gst unit -> Prop) (Q : A -> gst unit -> Prop)
  (ctx : cmd P T B -> cmd P T A) c g,
  (forall c, (depth c <= D1)%nat -> (depth (ctx c) <= D)%nat) ->
  (forall c, match view c with HRet _ => True | h => view (ctx c) = hcont ctx h end) ->
  (forall b c g' m', (S m' <= m)%nat -> (depth c <= D1)%nat -> view c = HRet b -> Q1 b g' -> vp (S m') D Q (ctx c) g') ->
  vp m D1 Q1 c g -> vp m D Q (ctx c) g.
Proof.
  induction m as [|m IH]; intros A B D D1 Q1 Q ctx c g HD HC HR H; [exact I|].
  destruct H as [Hd H].
  assert (IHc : forall c g, vp m D1 Q1 c g -> vp m D Q (ctx c) g).
  { intros c1 g1 H1. eapply IH; eauto. }
  assert (HCc := HC c). assert (HRc := HR). destruct (view c) eqn:Ev.
  - eapply HRc; eauto.
  - contradiction.
  - split; [auto|]. rewrite HCc. cbn [hcont]. apply IHc; exact H.
  - split; [auto|]. rewrite HCc. cbn [hcont]. intuition.
  - split; [auto|]. rewrite HCc. cbn [hcont]. intuition.
  - split; [auto|]. rewrite HCc. cbn [hcont]. intuition.
  - split; [auto|]. rewrite HCc. cbn [hcont]. destruct H as [H|H]; [left|right].
    + destruct H as (a & d1 & P1 & P2 & H). exists a, d1, P1, P2. intuition.
    + destruct H as (a & dj & d2 & r2 & post & H). exists a, dj, d2, r2, post. intuition.
  - split; [auto|]. rewrite HCc. cbn [hcont]. intuition.
  - split; [auto|]. rewrite HCc. cbn [hcont]. destruct H as (a & H). exists a. intuition.
  - split; [auto|]. rewrite HCc. cbn [hcont].
    destruct H as [(E & a & H)|(E & a & H)]; [left|right]; (split; [exact E|]); exists a; intuition.
  - split; [auto|]. rewrite HCc. cbn [hcont]. destruct H as (Pr & H). exists Pr. intuition.
  - split; [auto|]. rewrite HCc. cbn [hcont].
    destruct H as [(j & H)|H]; [left; exists j|right]; intuition.
  - split; [auto|]. rewrite HCc. cbn [hcont].
    destruct H as [(a & j & H)|(Pf & H)]; [left; exists a, j|right; exists Pf]; intuition.
Qed.

Lemma vp_ret m D {A} (Q : A -> gst unit -> Prop) a g : Q a g -> vp m D Q (Ret a) g.
Proof. intro H. destruct m; [exact I|]. split; [simpl; lia|exact H]. Qed.

(** A program with the head of another one. *)
Lemma vp_head m D D' {A} (Q : A -> gst unit -> Prop) c c' g :
  view c = view c' -> (depth c <= D)%nat -> D = D' -> vp m D' Q c' g -> vp m D Q c g.
Proof.
  intros Hv Hd <- H. destruct m as [|m]; [exact I|]. destruct H as [_ H]. split; [exact Hd|].
  rewrite Hv. exact H.
Qed.

Lemma vp_bind m D {A B} (Q : A -> gst unit -> Prop) (c : cmd P T B) k g (Q1 : B -> gst unit -> Prop) :
  vp m D Q1 c g -> (forall b g' m', (m' <= m)%nat -> Q1 b g' -> vp m' D Q (k b) g') ->
  vp m D Q (Bind c k) g.
Proof.
  intros H HK. revert H.
  apply (vp_ctx m D D Q1 Q (fun c => Bind c k)).
  - simpl; auto.
  - intro c0. simpl. destruct (view c0); auto.
  - intros b c0 g' m' Hm Hd Hv Hq. eapply vp_head; [|exact Hd|reflexivity|apply HK; [exact Hm|exact Hq]].
    simpl. rewrite Hv. reflexivity.
Qed.

Lemma vp_conseq m D1 D {A} (Q1 Q : A -> gst unit -> Prop) c g :
  vp m D1 Q1 c g -> (D1 <= D)%nat -> (forall a g', Q1 a g' -> Q a g') -> vp m D Q c g.
Proof.
  intros H HD HQ. revert H.
  apply (vp_ctx m D D1 Q1 Q (fun c => c)).
  - intros; lia.
  - intro c0. destruct (view c0); auto.
  - intros b c0 g' m' Hm Hd Hv Hq. split; [lia|]. rewrite Hv. auto.
Qed.

Lemma vp_incall m D {A} (Q : A -> gst unit -> Prop) c k g (Q1 : unit -> gst unit -> Prop) :
  vp m D Q1 c g -> (forall g' m', (m' <= m)%nat -> Q1 tt g' -> vp m' (S D) Q k g') ->
  vp m (S D) Q (InCall c k) g.
Proof.
  intros H HK. revert H.
  apply (vp_ctx m (S D) D Q1 Q (fun c => InCall c k)).
  - simpl; intros; lia.
  - intro c0. simpl. destruct (view c0); auto.
  - intros [] c0 g' m' Hm Hd Hv Hq. split; [simpl; lia|]. simpl. rewrite Hv.
    apply HK; [lia|exact Hq].
Qed.

(** A call: the callee runs one step later, so its specification may be the one being
    proved, for fewer steps. *)
Lemma vp_call m D {A} (Q : A -> gst unit -> Prop) p k g (Q1 : unit -> gst unit -> Prop) :
  (0 < D)%nat -> live g -> (forall m', (m' < m)%nat -> vp m' (D - 1) Q1 (body p) g) ->
  (forall g' m', (m' < m)%nat -> Q1 tt g' -> vp m' D Q k g') ->
  vp m D Q (Call p k) g.
Proof.
  intros HD Hl HB HK. destruct m as [|m]; [exact I|]. split; [simpl; lia|]. simpl. split; [exact Hl|].
  destruct D as [|D]; [lia|]. eapply vp_incall; [replace D with (S D - 1)%nat by lia; apply HB; lia|].
  intros g' m' Hm Hq. apply HK; [lia|exact Hq].
Qed.

Lemma vp_loop m D {A S} (Inv : S -> gst unit -> Prop) (Q : A -> gst unit -> Prop) (bd : S -> cmd P T (S + A)) :
  (forall s g m', (m' < m)%nat -> Inv s g ->
     vp m' D (fun r g' => match r with inl s' => Inv s' g' | inr a => Q a g' end) (bd s) g) ->
  forall s g, Inv s g -> vp m D Q (Loop s bd) g.
Proof.
  induction m as [|m IH]; intros HB s g HI; [exact I|]. split; [simpl; lia|]. simpl.
  eapply vp_bind; [apply HB; [lia|exact HI]|].
  intros [s'|a] g' m' Hm Hq; [|apply vp_ret; exact Hq].
  apply (vp_le m); [exact Hm|]. apply IH; [|exact Hq].
  intros. apply HB; [lia|assumption].
Qed.

(** ** Rules of use *)

Lemma vp_loop_step m D {A S} (Q : A -> gst unit -> Prop) (s : S) (bd : S -> cmd P T (S + A)) g :
  (forall m', (m' < m)%nat ->
     vp m' D (fun r g' => match r with
                          | inl s' => forall m'', (m'' < m)%nat -> vp m'' D Q (Loop s' bd) g'
                          | inr a => Q a g'
                          end) (bd s) g) ->
  vp m D Q (Loop s bd) g.
Proof.
  intro H. destruct m as [|m]; [exact I|]. split; [simpl; lia|]. simpl.
  eapply vp_bind; [apply H; lia|]. intros [s'|a] g' m' Hm Hq; [apply Hq; lia|apply vp_ret; exact Hq].
Qed.

Lemma vp_loadmax m D {A} (Q : A -> gst unit -> Prop) k g :
  live g -> (forall x m', (m' < m)%nat -> 0 <= x -> vp m' D Q (k x) (setseen g x)) ->
  vp m D Q (LoadMax k) g.
Proof. intros Hl H. destruct m as [|m]; [exact I|]. split; [simpl; lia|]. simpl. auto. Qed.

Lemma vp_loadgor m D {A} (Q : A -> gst unit -> Prop) k g a :
  md g = MAct a -> a_credit a = false -> a_join a = None ->
  (forall z m', (m' < m)%nat -> vp m' D Q (k z) (setmd g (MAct (settok a (z <? seen g))))) ->
  vp m D Q (LoadGor k) g.
Proof.
  intros H1 H2 H3 H. destruct m as [|m]; [exact I|]. split; [simpl; lia|]. simpl. exists a. auto 6.
Qed.

Lemma vp_makesv m D {A} (Q : A -> gst unit -> Prop) k g Pr :
  md g = MInit -> 1 < seen g -> many (dom g) ->
  (forall m', (m' < m)%nat -> vp m' D Q k (setmd g (MAct (Act (Some Pr) Pr false true None)))) ->
  vp m D Q (MakeSv k) g.
Proof.
  intros H1 H2 H3 H. destruct m as [|m]; [exact I|]. split; [simpl; lia|]. simpl. exists Pr. auto 6.
Qed.

Lemma vp_addinc m D {A} (Q : A -> gst unit -> Prop) k g a :
  md g = MAct a -> a_credit a = false -> a_tok a = true -> a_join a = None ->
  twice (dom g) ->
  (forall z m', (m' < m)%nat -> vp m' D Q (k z) (setmd g (MAct (setcredit a)))) ->
  vp m D Q (AddGor 1 k) g.
Proof.
  intros H1 H2 H3 H4 H5 H. destruct m as [|m]; [exact I|]. split; [simpl; lia|]. simpl. left.
  split; [reflexivity|]. exists a. auto 8.
Qed.

Lemma vp_adddec m D {A} (Q : A -> gst unit -> Prop) k g a :
  md g = MAct a -> a_credit a = false -> a_join a = None ->
  (forall w, agrees g w -> a_P a w) ->
  (forall z m', (m' < m)%nat -> 0 <= z -> vp m' D Q (k z) (noown g (signed_off a z))) ->
  vp m D Q (AddGor (2 ^ 64 - 1) k) g.
Proof.
  intros H1 H2 H3 H4 H. destruct m as [|m]; [exact I|]. split; [simpl; lia|]. simpl. right.
  split; [reflexivity|]. exists a. auto 8.
Qed.

Lemma vp_forkcredit m D {A} (Q : A -> gst unit -> Prop) p k g a (d1 : cells) (P1 P2 : promise unit) :
  md g = MAct a -> a_credit a = true -> a_join a = None ->
  (forall i, d1 i -> dom g i) -> many d1 -> many (minus (dom g) d1) ->
  (forall w, P1 w -> P2 w -> a_P a w) ->
  (forall m', (m' < m)%nat ->
     vp m' Dm QTS (body p) (Gst d1 d1 (val g) (MAct (Act None P1 false false None)) 0)) ->
  (forall m', (m' < m)%nat ->
     vp m' D Q k (Gst (minus (dom g) d1) (minus (rd g) d1) (val g) (MAct (forked a P2)) (seen g))) ->
  vp m D Q (Fork p k) g.
Proof.
  intros H1 H2 H3 H4 H5 H6 H7 H8 H9. destruct m as [|m]; [exact I|]. split; [simpl; lia|]. simpl. left.
  exists a, d1, P1, P2. repeat (split; [assumption|]). split; [apply H8|apply H9]; lia.
Qed.

Lemma vp_forkpart m D {A} (Q : A -> gst unit -> Prop) p k g a (dj d2 r2 : cells) post :
  md g = MAct a -> a_main a <> None -> a_credit a = false -> a_tok a = true -> a_join a = None ->
  (forall i, dj i -> dom g i) -> (forall i, d2 i -> r2 i) -> (forall i, r2 i -> dj i) ->
  twice (dom g) -> (forall i, dj i \/ ~ dj i) ->
  (forall m', (m' < m)%nat -> vp m' Dm QTS (body p) (Gst d2 r2 (val g) (MPart (Join dj post)) 0)) ->
  (forall m', (m' < m)%nat -> vp m' D Q k (Gst (minus (dom g) dj) (minus (rd g) d2) (val g)
                   (MAct (setjoin a (Some (Join dj post)))) (seen g))) ->
  vp m D Q (Fork p k) g.
Proof.
  intros H1 H2 H3 H4 H5 H6 H7 H7' H8 H8' H9 H10. destruct m as [|m]; [exact I|]. split; [simpl; lia|]. simpl. right.
  exists a, dj, d2, r2, post. repeat (split; [assumption|]). split; [apply H9|apply H10]; lia.
Qed.

Lemma vp_sendpart m D {A} (Q : A -> gst unit -> Prop) v k g j :
  md g = MPart j -> (forall w, agrees g w -> j_post j v w) ->
  (forall m', (m' < m)%nat -> vp m' D Q k (noown g MDone)) -> vp m D Q (Send v k) g.
Proof.
  intros H1 H2 H. destruct m as [|m]; [exact I|]. split; [simpl; lia|]. simpl. left. exists j. auto.
Qed.

Lemma vp_sendlast m D {A} (Q : A -> gst unit -> Prop) v k g :
  md g = MLast -> (forall m', (m' < m)%nat -> vp m' D Q k (noown g MDone)) -> vp m D Q (Send v k) g.
Proof. intros H1 H. destruct m as [|m]; [exact I|]. split; [simpl; lia|]. simpl. right. auto. Qed.

Lemma vp_recvjoin m D {A} (Q : A -> gst unit -> Prop) k g a j :
  md g = MAct a -> a_join a = Some j ->
  (forall v w m', (m' < m)%nat -> agrees g w -> j_post j v w ->
     vp m' D Q (k v) (Gst (union (dom g) (j_D j)) (union (rd g) (j_D j)) w
                          (MAct (setjoin a None)) (seen g))) ->
  vp m D Q (Recv k) g.
Proof.
  intros H1 H2 H. destruct m as [|m]; [exact I|]. split; [simpl; lia|]. simpl. left. exists a, j. auto 6.
Qed.

Lemma vp_recvwait m D {A} (Q : A -> gst unit -> Prop) k g Pf :
  md g = MWait Pf -> (forall v m', (m' < m)%nat -> vp m' D Q (k v) (setmd g (MFinal Pf))) ->
  vp m D Q (Recv k) g.
Proof.
  intros H1 H. destruct m as [|m]; [exact I|]. split; [simpl; lia|]. simpl. right. exists Pf. auto.
Qed.

Lemma vp_read m D {A} (Q : A -> gst unit -> Prop) i k g :
  live g -> rd g i -> (forall v m', (m' < m)%nat -> vp m' D Q (k v) g) -> vp m D Q (Read i k) g.
Proof. intros Hl Hi H. destruct m as [|m]; [exact I|]. split; [simpl; lia|]. simpl. auto. Qed.

Lemma vp_write m D {A} (Q : A -> gst unit -> Prop) i x k g :
  live g -> dom g i -> (forall m', (m' < m)%nat -> vp m' D Q k g) -> vp m D Q (Write i x k) g.
Proof. intros Hl Hi H. destruct m as [|m]; [exact I|]. split; [simpl; lia|]. simpl. auto. Qed.

(** Code on a local array. *)
Lemma vp_local {U A} (bodyU : P -> cmd P U unit) D (Q : A -> gst unit -> Prop) nl L (Ql : (Z -> U) -> Prop)
  (k : list U -> cmd P T A) g :
  (forall p, bodyU p = Panic) ->
  forall m c vl,
  swp bodyU 0 nl (fun i => 0 <= i < L) (fun i => 0 <= i < L) (fun _ _ v' => Ql v') c vl ->
  (forall vl' m', (m' < m)%nat -> Ql vl' -> vp m' D Q (k (seg vl' 0 L)) g) ->
  vp m D Q (Local (seg vl 0 L) c k) g.
Proof.
  intros HU. induction nl as [|nl IH]; intros m c vl H HK; (destruct m as [|m]; [exact I|]);
    rewrite swp_eq in H; destruct H as [Hd H]; (split; [simpl; lia|]); cbn [view];
    destruct (view c) eqn:E; try contradiction.
  - apply HK; [lia|exact H].
  - apply HK; [lia|exact H].
  - apply IH; [exact H|]. intros; apply HK; [lia|assumption].
  - destruct H as [H1 H2]. rewrite lget_seg by exact H1. apply IH; [exact H2|]. intros; apply HK; [lia|assumption].
  - destruct H as [H1 H2]. rewrite lset_seg by exact H1. apply IH; [exact H2|]. intros; apply HK; [lia|assumption].
  - rewrite HU in H. exfalso. clear -H Hd E.
    assert (G : forall (A : Type) (c : cmd P U A) p k, view c = HCall p k -> view (k Panic) = HPanic).
    { clear. intros A c; induction c; simpl; intros q kk Hv; try discriminate.
      - destruct (view c) eqn:Ec; simpl in Hv; try discriminate.
        + eapply H; eassumption.
        + inversion Hv; subst. simpl. rewrite (IHc _ _ eq_refl). reflexivity.
      - destruct (view c) eqn:Ec; simpl in Hv; try discriminate.
        + destruct (lget m i); discriminate.
        + destruct (lset m i v); discriminate.
      - inversion Hv; subst. reflexivity.
      - destruct (view c1) eqn:Ec; simpl in Hv; try discriminate.
        inversion Hv; subst. simpl. rewrite (IHc1 _ _ eq_refl). reflexivity. }
    rewrite swp_eq in H. rewrite (G _ _ _ _ E) in H. tauto.
Qed.

End Veil.
