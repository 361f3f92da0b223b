(** * All the goroutines of a call: the entry points, and an execution attaining the bounds *)

From Coq Require Import List ZArith Lia Bool.
From Verif Require Import Lang Trace SeqLogic ConcLogic Scalar Typed Kinds Spec Lsw Calls Guarantee Witness Spread Tally.
Import ListNotations.
Open Scope Z_scope.

Lemma call_tally pl tn T (C : call T) M tr s idx : platOk pl -> tuningOk pl tn -> sortCall pl tn C -> traced C M tr s ->
  NoDup idx -> (forall t, In t idx -> In (EvAtomic t) tr) ->
  let q := cLen C / ((if cFC C then maxLenRecFC tn else maxLenRec tn) + 1) in
  Z.of_nat (length idx) <= q /\ atoms tr <= Z.max 0 (2 * q - 1).
Proof.
  intros Hpl Htn HC (mg0 & Hmg & He) Hnd Hi. cbv zeta.
  destruct (call_elems pl tn T C Hpl HC) as (L & HL & EL).
  assert (HR := rec_nonneg pl tn (cFC C) Htn).
  destruct (tally_all (Gr := callGrain tn C) _ _ _ M (cCells C) _ (call_finite pl tn T C Hpl HC) _ _ _ mg0 MInit Hmg (or_intror eq_refl)
    (call_certified pl tn T C MInit Hpl Htn HC (or_introl eq_refl)) tr s L idx He HL Hnd Hi) as (q & H1 & H2 & H3 & H4).
  unfold gr, callGrain in H1. rewrite Z2Nat.id, EL in H1 by exact HR.
  assert (q <= cLen C / ((if cFC C then maxLenRecFC tn else maxLenRec tn) + 1)) by (apply Z.div_le_lower_bound; lia). lia.
Qed.

Section Runner.
Context {P T R : Type}.
Variable body : P -> cmd P T unit.

Definition ev1 (ch : choice) (s : st P T R) : event :=
  match ch with
  | CMain => Trace.label 0 (length (thr s)) (main s)
  | CThr i => match split_at i (thr s) with Some (l1, c, l2) => Trace.label (S (length l1)) (length (thr s)) c | None => EvStep 0 end
  | CToMain i => match split_at i (thr s) with Some (l1, c, l2) => EvComm (S (length l1)) 0 | None => EvStep 0 end
  end.

Lemma run1_tstep ch s s' : run1 body ch s = Some s' -> Trace.tstep body (ev1 ch s) s s'.
Proof.
  destruct s as [m ts s]. destruct ch as [|i|i]; cbn [run1 ev1 main thr sh].
  - destruct (exec_local body m s) as [[[m' s''] fs]|] eqn:E; [|discriminate].
    intro H; inversion H; subst. apply tstep_main; assumption.
  - destruct (split_at i ts) as [[[l1 c] l2]|] eqn:Es; [|discriminate].
    destruct (exec_local body c s) as [[[c' s''] fs]|] eqn:E; [|discriminate].
    intro H; inversion H; subst. rewrite (split_at_app _ _ _ _ _ Es).
    apply tstep_thr; assumption.
  - destruct (split_at i ts) as [[[l1 c] l2]|] eqn:Es; [|discriminate].
    destruct (view c) eqn:Ec; try discriminate.
    destruct (view m) eqn:Em; try discriminate.
    intro H; inversion H; subst. rewrite (split_at_app _ _ _ _ _ Es).
    eapply tstep_to_main; eassumption.
Qed.

Fixpoint firstT (chs : list choice) (s : st P T R) : option (event * st P T R) :=
  match chs with
  | [] => None
  | ch :: chs' => match run1 body ch s with Some s' => Some (ev1 ch s, s') | None => firstT chs' s end
  end.

Fixpoint rotateT (fuel n : nat) (acc : list event) (s : st P T R) : list event * st P T R :=
  match fuel with
  | O => (acc, s)
  | S f =>
      let chs := allChoices s in
      let m := Nat.modulo n (length chs) in
      match firstT (skipn m chs ++ firstn m chs) s with Some (e, s') => rotateT f (S n) (e :: acc) s' | None => (acc, s) end
  end.

Lemma firstT_tstep chs s e s' : firstT chs s = Some (e, s') -> Trace.tstep body e s s'.
Proof.
  induction chs as [|ch chs IH]; cbn [firstT]; [discriminate|]. destruct (run1 body ch s) as [s1|] eqn:E; [|auto].
  intro H; inversion H; subst. apply run1_tstep. exact E.
Qed.

Lemma rotateT_texec M Rg s0 f : forall n acc s, texec body M Rg (rev acc) s0 s ->
  texec body M Rg (rev (fst (rotateT f n acc s))) s0 (snd (rotateT f n acc s)).
Proof.
  induction f as [|f IH]; intros n acc s H; cbn [rotateT]; [exact H|]. cbv zeta.
  match goal with |- context [match ?X with Some _ => _ | None => _ end] => destruct X as [[e s1]|] eqn:E end; [|exact H].
  apply IH. cbn [rev]. eapply texec_prog; [exact H|]. eapply firstT_tstep. exact E.
Qed.
End Runner.

Definition isAtom (t : nat) (e : event) : bool := match e with EvAtomic u => Nat.eqb t u | _ => false end.

Lemma isAtom_In t tr : existsb (isAtom t) tr = true -> In (EvAtomic t) tr.
Proof.
  rewrite existsb_exists. intros (e & He & H). destruct e; try discriminate. cbn in H. apply Nat.eqb_eq in H. subst. exact He.
Qed.

Lemma run_tally {T} (C : call T) M mg0 f idx a :
  (0 <=? mg0) && (mg0 <=? M) = true ->
  (let r := rotateT (cProcs C) f 0 [] (start (cProg C) (cInit C) mg0) in
   isRet (snd r) && forallb (fun u => existsb (isAtom u) (fst r)) idx && (atoms (rev (fst r)) =? a)) = true ->
  exists tr s, traced C M tr s /\ returned s tt /\ (forall t, In t idx -> In (EvAtomic t) tr) /\ atoms tr = a.
Proof.
  cbv zeta. intros Hm H. apply andb_prop in Hm. destruct Hm as [Hm1 Hm2]. apply Z.leb_le in Hm1, Hm2.
  apply andb_prop in H. destruct H as [H H3]. apply andb_prop in H. destruct H as [H1 H2]. apply Z.eqb_eq in H3.
  assert (Ht := rotateT_texec (cProcs C) M (cCells C) (start (cProg C) (cInit C) mg0) f 0 [] _ (texec_refl _ _ _ _)).
  destruct (rotateT (cProcs C) f 0 [] (start (cProg C) (cInit C) mg0)) as [acc s]. cbn [fst snd] in *.
  exists (rev acc), s. split; [exists mg0; split; [lia|exact Ht]|]. split; [apply isRet_returned; exact H1|]. split; [|exact H3].
  intros t Hin. rewrite <- in_rev. apply isAtom_In. rewrite forallb_forall in H2. apply H2. exact Hin.
Qed.

Lemma spread_tally : exists tr s idx, traced spreadCall 9 tr s /\ returned s tt /\ NoDup idx /\ (forall t, In t idx -> In (EvAtomic t) tr) /\
  cLen spreadCall / (maxLenRec tiny + 1) = 4 /\ length idx = 4%nat /\ atoms tr = 7.
Proof.
  destruct (run_tally spreadCall 9 9 (Z.to_nat 30000) [0; 2; 4; 5]%nat 7) as (tr & s & H1 & H2 & H3 & H4); [reflexivity|vm_compute; reflexivity|].
  exists tr, s, [0; 2; 4; 5]%nat. split; [exact H1|]. split; [exact H2|]. split; [repeat constructor; simpl; intuition discriminate|].
  split; [exact H3|]. split; [reflexivity|]. split; [reflexivity|exact H4].
Qed.
