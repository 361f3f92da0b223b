(** * Reasoning about concurrent sorting, independent of the element type

    Derived rules of the logic of [ConcLogic.v], and the assertion [delegated]: a
    goroutine that had to bring cells [d] into a state [S] did part of that itself and
    handed the cells [O] over to goroutines it started. *)

From Coq Require Import List ZArith Lia Bool Permutation.
From Verif Require Import Lang SeqLogic ConcLogic Base Typed SeqOps.
Import ListNotations.
Open Scope Z_scope.

(** A slice is made of as many elements as its length says. *)
Lemma atLeast_range n (o : Z) (d : cells) :
  (forall i, o <= i < o + Z.of_nat n -> d i) -> atLeast n d.
Proof.
  intro H. exists (map (fun i => o + Z.of_nat i) (seq 0 n)).
  split; [|split; [rewrite map_length, seq_length; reflexivity|]].
  - apply FinFun.Injective_map_NoDup; [intros x y; lia|apply seq_NoDup].
  - intros i Hi. apply in_map_iff in Hi. destruct Hi as (j & <- & Hj). apply in_seq in Hj. apply H. lia.
Qed.

Lemma atLeast_reg n s (d : cells) : (forall i, reg s i -> d i) -> Z.of_nat n <= len s -> atLeast n d.
Proof. intros H Hn. apply (atLeast_range n (off s)). intros i Hi. apply H. unfold reg. lia. Qed.

Section Rules.
Context {Gr : grain}.
Context {P T : Type}.
Variable body : P -> cmd P T unit.
Variable W : nat -> cmd P T unit -> gst T -> Prop.
Notation wp := (wp body W).
Notation swp := (swp body).

Lemma wp_apply {A} D1 D n1 n (Post : A -> gst T -> Prop) (Q : A -> nat -> gst T -> Prop) c g :
  wp D1 (fun a _ g' => Post a g') n1 c g -> (D1 <= D)%nat -> (n1 <= n)%nat ->
  (forall a m g', Post a g' -> (n <= m + n1)%nat -> Q a m g') -> wp D Q n c g.
Proof.
  intros H HD Hn HQ. eapply wp_more; [exact H|exact HD|exact Hn|].
  cbv beta. intros a m g' Hm H1. apply HQ; [exact H1|lia].
Qed.

Lemma wp_sapply {A} {Th : thawed Gr} D1 D n1 n (R1 W1 : cells) (Post : A -> (Z -> T) -> Prop)
  (Q : A -> nat -> gst T -> Prop) c g :
  live g -> swp D1 n1 R1 W1 (fun a _ v' => Post a v') c (val g) -> (D1 <= D)%nat -> (n1 <= n)%nat ->
  (forall i, R1 i -> rd g i) -> (forall i, W1 i -> dom g i) ->
  (forall a m v', Post a v' -> (forall i, ~ W1 i -> v' i = val g i) -> (n <= m + n1)%nat ->
     Q a m (setval g v')) ->
  wp D Q n c g.
Proof.
  intros Hl H HD Hn HR HW HQ.
  eapply (wp_seq body W D (fun a m v' => Post a v' /\ (forall i, ~ W1 i -> v' i = val g i) /\ (n <= m + n1)%nat)).
  - exact Hl.
  - eapply swp_apply; [exact H|exact HD|exact Hn|exact HR|split; [auto|exact Th]|]. auto.
  - intros a m v' _ (H1 & H2 & H3). auto.
Qed.

(** The same for code that only reads. *)
Lemma wp_rapply {A} D1 D n1 n (R1 : cells) (Post : A -> (Z -> T) -> Prop)
  (Q : A -> nat -> gst T -> Prop) c g :
  live g -> swp D1 n1 R1 (fun _ => False) (fun a _ v' => Post a v') c (val g) -> (D1 <= D)%nat -> (n1 <= n)%nat ->
  (forall i, R1 i -> rd g i) ->
  (forall a m v', Post a v' -> (forall i, v' i = val g i) -> (n <= m + n1)%nat -> Q a m (setval g v')) ->
  wp D Q n c g.
Proof.
  intros Hl H HD Hn HR HQ.
  eapply (wp_seq body W D (fun a m v' => Post a v' /\ (forall i, ~ False -> v' i = val g i) /\ (n <= m + n1)%nat)).
  - exact Hl.
  - eapply swp_apply; [exact H|exact HD|exact Hn|exact HR|intros i []|]. auto.
  - intros a m v' _ (H1 & H2 & H3). apply HQ; auto.
Qed.

Lemma wp_calln D {A} (Q : A -> nat -> gst T -> Prop) n p k g :
  (0 < D)%nat -> (0 < n)%nat -> live g ->
  wp (D - 1) (fun _ m g' => (0 < m)%nat /\ wp D Q (m - 1) k g') (n - 1) (body p) g ->
  wp D Q n (Call p k) g.
Proof.
  intros HD Hn Hl H. destruct D as [|D]; [lia|]. apply wp_call; [exact Hn|exact Hl|].
  replace (S D - 1)%nat with D in H by lia. exact H.
Qed.

Lemma wp_makesv D {A} (Q : A -> nat -> gst T -> Prop) n k g Pr :
  (0 < n)%nat -> md g = MInit -> 1 < seen g -> many (dom g) ->
  wp D Q (n - 1) k (setmd g (MAct (Act (Some Pr) Pr false true None))) -> wp D Q n (MakeSv k) g.
Proof. intros. eapply wp_HMakeSv with (n' := (n - 1)%nat); simpl; eauto; lia. Qed.

Lemma wp_addinc D {A} (Q : A -> nat -> gst T -> Prop) n k g a :
  (0 < n)%nat -> md g = MAct a -> a_credit a = false -> a_tok a = true -> a_join a = None ->
  twice (dom g) ->
  (forall z, wp D Q (n - 1) (k z) (setmd g (MAct (setcredit a)))) -> wp D Q n (AddGor 1 k) g.
Proof. intros. eapply wp_HAddGor_inc with (n' := (n - 1)%nat); simpl; eauto; lia. Qed.

Lemma wp_adddec D {A} (Q : A -> nat -> gst T -> Prop) n k g a :
  (0 < n)%nat -> md g = MAct a -> a_credit a = false -> a_join a = None ->
  (forall w, agrees g w -> a_P a w) ->
  (forall z, 0 <= z -> wp D Q (n - 1) (k z) (noown g (signed_off a z))) ->
  wp D Q n (AddGor (2 ^ 64 - 1) k) g.
Proof. intros. eapply wp_HAddGor_dec with (n' := (n - 1)%nat); simpl; eauto; lia. Qed.

Lemma wp_forkcredit D {A} (Q : A -> nat -> gst T -> Prop) n p k g a (d1 : cells)
  (P1 P2 : promise T) n1 n2 :
  md g = MAct a -> a_credit a = true -> a_join a = None ->
  (forall i, d1 i -> dom g i) -> many d1 -> many (minus (dom g) d1) ->
  (forall w, P1 w -> P2 w -> a_P a w) -> (n1 + n2 < n)%nat ->
  W n1 (body p) (Gst d1 d1 (val g) (MAct (Act None P1 false false None)) 0) ->
  wp D Q n2 k (Gst (minus (dom g) d1) (minus (rd g) d1) (val g) (MAct (forked a P2)) (seen g)) ->
  wp D Q n (Fork p k) g.
Proof.
  intros. apply (wp_HFork_credit body W D Q n (Fork p k) g (n - 1)%nat p k a d1 P1 P2 n1 n2);
    try assumption; simpl; auto; lia.
Qed.

Lemma wp_forkpart D {A} (Q : A -> nat -> gst T -> Prop) n p k g a (dj d2 r2 : cells) post n1 n2 :
  md g = MAct a -> a_main a <> None -> a_credit a = false -> a_tok a = true -> a_join a = None ->
  (forall i, dj i -> dom g i) -> (forall i, d2 i -> r2 i) -> (forall i, r2 i -> dj i) ->
  twice (dom g) -> (forall i, dj i \/ ~ dj i) -> (n1 + n2 < n)%nat ->
  W n1 (body p) (Gst d2 r2 (val g) (MPart (Join dj post)) 0) ->
  wp D Q n2 k (Gst (minus (dom g) dj) (minus (rd g) d2) (val g)
                   (MAct (setjoin a (Some (Join dj post)))) (seen g)) ->
  wp D Q n (Fork p k) g.
Proof.
  intros. apply (wp_HFork_part body W D Q n (Fork p k) g (n - 1)%nat p k a dj d2 r2 post n1 n2);
    try assumption; simpl; auto; lia.
Qed.

Lemma wp_sendpart D {A} (Q : A -> nat -> gst T -> Prop) n v k g j :
  (0 < n)%nat -> md g = MPart j -> (forall w, agrees g w -> j_post j v w) ->
  wp D Q (n - 1) k (noown g MDone) -> wp D Q n (Send v k) g.
Proof. intros. eapply wp_HSend_part with (n' := (n - 1)%nat); simpl; eauto; lia. Qed.

Lemma wp_sendlast D {A} (Q : A -> nat -> gst T -> Prop) n v k g :
  (0 < n)%nat -> md g = MLast -> wp D Q (n - 1) k (noown g MDone) -> wp D Q n (Send v k) g.
Proof. intros. eapply wp_HSend_last with (n' := (n - 1)%nat); simpl; eauto; lia. Qed.

Lemma wp_recvjoin D {A} (Q : A -> nat -> gst T -> Prop) n k g a j :
  (0 < n)%nat -> md g = MAct a -> a_join a = Some j ->
  (forall v w, agrees g w -> j_post j v w ->
     wp D Q (n - 1) (k v) (Gst (union (dom g) (j_D j)) (union (rd g) (j_D j)) w
                          (MAct (setjoin a None)) (seen g))) ->
  wp D Q n (Recv k) g.
Proof. intros. eapply wp_HRecv_join with (n' := (n - 1)%nat); simpl; eauto; lia. Qed.

Lemma wp_recvwait D {A} (Q : A -> nat -> gst T -> Prop) n k g Pf :
  (0 < n)%nat -> md g = MWait Pf -> (forall v, wp D Q (n - 1) (k v) (setmd g (MFinal Pf))) ->
  wp D Q n (Recv k) g.
Proof. intros. eapply wp_HRecv_wait with (n' := (n - 1)%nat); simpl; eauto; lia. Qed.

End Rules.

(** ** Delegation *)

Section Delegate.
Context {T : Type}.
Implicit Types (g : gst T) (a : act T) (S : promise T) (d O : cells).

Definition idle a : Prop := a_credit a = false /\ a_join a = None.

Definition delegated d S g a g' : Prop :=
  exists O a', md g' = MAct a' /\ a_main a' = a_main a /\ idle a' /\
    (forall i, O i -> d i) /\
    (forall i, dom g' i <-> dom g i /\ ~ O i) /\
    (forall i, rd g' i <-> rd g i /\ ~ O i) /\
    (forall i, ~ d i -> val g' i = val g i) /\
    forall w, (forall i, d i -> ~ O i -> w i = val g' i) ->
      (forall u, (forall i, ~ O i -> u i = w i) -> S u -> a_P a u) -> a_P a' w.

Lemma delegated_local d S g a v' :
  md g = MAct a -> idle a ->
  (forall i, ~ d i -> v' i = val g i) ->
  (forall u, (forall i, d i -> u i = v' i) -> S u) ->
  delegated d S g a (setval g v').
Proof.
  intros Hm Hi Hf HS. exists empty, a. split; [exact Hm|]. split; [reflexivity|]. split; [exact Hi|].
  split; [intros i []|]. split; [intro i; simpl; unfold empty; tauto|].
  split; [intro i; simpl; unfold empty; tauto|]. split; [exact Hf|].
  intros w Hw HP. apply HP; [auto|]. apply HS. intros i Hd. apply Hw; [exact Hd|intros []].
Qed.

Definition sameact a a1 : Prop := a_main a1 = a_main a /\ a_P a1 = a_P a.

(** Own a sub-range, after handing another one to a new goroutine. *)
Lemma delegated_fork d d1 d2 S S1 S2 g a g1 a1 g' :
  sameact a a1 -> (forall i, dom g1 i <-> dom g i) -> (forall i, rd g1 i <-> rd g i) ->
  (forall i, ~ d i -> val g1 i = val g i) ->
  (forall i, d1 i -> d i) -> (forall i, d2 i -> d i) -> (forall i, d1 i -> ~ d2 i) ->
  (forall i, {d2 i} + {~ d2 i}) ->
  (forall u, S1 u -> S2 u -> S u) ->
  delegated d1 S1
    (Gst (minus (dom g1) d2) (minus (rd g1) d2) (val g1)
         (MAct (forked a1 (fun u => S2 u -> a_P a1 u))) (seen g1))
    (forked a1 (fun u => S2 u -> a_P a1 u)) g' ->
  delegated d S g a g'.
Proof.
  intros [E1 E2] Hd Hr Hv H1 H2 H12 Dec HS (O & a' & Em & Ea & Hi & HO & HD & HR & HV & HP).
  simpl in *. exists (union O d2), a'. split; [exact Em|]. split; [congruence|]. split; [exact Hi|].
  split; [|split; [|split; [|split]]].
  - intros i [Ho|Ho]; auto.
  - intro i. rewrite HD. unfold minus, union. rewrite Hd. tauto.
  - intro i. rewrite HR. unfold minus, union. rewrite Hr. tauto.
  - intros i Hn. rewrite HV by auto. apply Hv; exact Hn.
  - intros w Hw HF. apply HP.
    + intros i Hd1 Ho. apply Hw; [auto|]. intros [?|?]; [contradiction|]. eapply H12; eauto.
    + intros u Hu Hs1 Hs2. rewrite E2. apply HF; [|auto].
      intros i Hn. apply Hu. intro Ho. apply Hn. left; exact Ho.
Qed.

(** One sub-range after the other. *)
Lemma delegated_seq d d1 d2 S S1 S2 g a g1 a1 g2 g3 :
  sameact a a1 -> (forall i, dom g1 i <-> dom g i) -> (forall i, rd g1 i <-> rd g i) ->
  (forall i, ~ d i -> val g1 i = val g i) ->
  (forall i, d1 i -> d i) -> (forall i, d2 i -> d i) -> (forall i, d1 i -> ~ d2 i) ->
  (forall u u', (forall i, d2 i -> u' i = u i) -> S2 u -> S2 u') ->
  (forall u, S1 u -> S2 u -> S u) ->
  delegated d1 S1 g1 a1 g2 ->
  (forall a2, md g2 = MAct a2 -> delegated d2 S2 g2 a2 g3) ->
  delegated d S g a g3.
Proof.
  intros [E1 E2] Hd Hr Hv H1 H2 H12 Hloc HS (O & a2 & Em & Ea & Hi & HO & HD & HR & HV & HP) H.
  destruct (H a2 Em) as (O' & a' & Em' & Ea' & Hi' & HO' & HD' & HR' & HV' & HP').
  exists (union O O'), a'. split; [exact Em'|]. split; [congruence|]. split; [exact Hi'|].
  split; [|split; [|split; [|split]]].
  - intros i [Ho|Ho]; auto.
  - intro i. rewrite HD', HD, Hd. unfold union. tauto.
  - intro i. rewrite HR', HR, Hr. unfold union. tauto.
  - intros i Hn. rewrite HV', HV by auto. apply Hv; exact Hn.
  - intros w Hw HF. apply HP'.
    + intros i Hd2 Ho. apply Hw; [auto|]. intros [?|?]; [|contradiction]. eapply H12; eauto.
    + intros u Hu Hs2. apply HP.
      * intros i Hd1 Ho. rewrite Hu by (intro Ho'; eapply H12; eauto).
        rewrite Hw; [|auto|]. 2:{ intros [?|Ho']; [contradiction|]. eapply H12; eauto. }
        apply HV'. auto.
      * intros u' Hu' Hs1. rewrite E2. apply HF.
        -- intros i Hn. rewrite Hu', Hu; [reflexivity| |]; intro Ho; apply Hn; unfold union; tauto.
        -- apply HS; [exact Hs1|]. eapply Hloc; [|exact Hs2]. intros i Hi2. apply Hu'.
           intro Ho. eapply H12; eauto.
Qed.

Lemma delegated_weak d d1 S S1 g a g1 a1 g' :
  sameact a a1 -> (forall i, dom g1 i <-> dom g i) -> (forall i, rd g1 i <-> rd g i) ->
  (forall i, ~ d i -> val g1 i = val g i) ->
  (forall i, d1 i -> d i) -> (forall u, S1 u -> (forall i, d i -> ~ d1 i -> u i = val g1 i) -> S u) ->
  delegated d1 S1 g1 a1 g' -> delegated d S g a g'.
Proof.
  intros [E1 E2] Hd Hr Hv H1 HS (O & a2 & Em & Ea & Hi & HO & HD & HR & HV & HP).
  exists O, a2. split; [exact Em|]. split; [congruence|]. split; [exact Hi|].
  split; [|split; [|split; [|split]]].
  - auto.
  - intro i. rewrite HD, Hd. tauto.
  - intro i. rewrite HR, Hr. tauto.
  - intros i Hn. rewrite HV by auto. apply Hv; exact Hn.
  - intros w Hw HF. apply HP.
    + intros i Hd1 Ho. apply Hw; auto.
    + intros u Hu Hs1. rewrite E2. apply HF; [exact Hu|]. apply HS; [exact Hs1|].
      intros i Hdi Hn. rewrite Hu by (intro Ho; apply Hn; auto).
      rewrite Hw; [apply HV; exact Hn|exact Hdi|]. intro Ho; apply Hn; auto.
Qed.

End Delegate.
