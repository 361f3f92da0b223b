(** * How many results a call can have

    What the collection ends up as depends on the input and on the number of rounds that the caller
    makes with a partner, and on nothing else. *)

From Coq Require Import List ZArith Lia Bool Permutation.
From Verif Require Import Lang SeqLogic Yields ConcLogic Adequacy Base Scalar Typed SeqOps TypedShort
  ScalarFacts TypedPart TypedPivot TypedLong TypedSort Kinds Spec KindsFacts TypedApi Lsw LswSeq LswLong LswSort Calls Guarantee Witness.
Import ListNotations.
Open Scope Z_scope.
Local Arguments Z.mul : simpl never.
Local Arguments Z.add : simpl never.
Local Arguments Z.sub : simpl never.
Local Arguments Z.pow : simpl never.

(** ** Any MaxGor *)

(** Different ones in a list, each with a number below [b]: at most [b] of them. *)
Lemma numbered {A} (R : A -> A -> Prop) (num : A -> nat -> Prop) (b : nat) :
  (forall x y r, num x r -> num y r -> R x y -> False) ->
  forall l, ForallOrdPairs R l -> (forall x, In x l -> exists r, (r < b)%nat /\ num x r) -> (length l <= b)%nat.
Proof.
  intros HR l Hl Hn.
  assert (G : exists rs, NoDup rs /\ length rs = length l /\ (forall r, In r rs -> (r < b)%nat) /\
    forall r, In r rs -> exists x, In x l /\ num x r).
  { induction Hl as [|x l Hx Hl IH].
    - exists []. split; [constructor|]. split; [reflexivity|]. split; intros r [].
    - destruct IH as (rs & H1 & H2 & H3 & H4); [intros y Hy; apply Hn; right; exact Hy|].
      destruct (Hn x (or_introl eq_refl)) as (r & Hr & Hnr). exists (r :: rs). split.
      + constructor; [|exact H1]. intro Hin. destruct (H4 r Hin) as (y & Hy & Hny).
        rewrite Forall_forall in Hx. exact (HR x y r Hnr Hny (Hx y Hy)).
      + split; [simpl; congruence|]. split.
        * intros r' [<-|Hi]; auto.
        * intros r' [<-|Hi]; [exists x; split; [left; reflexivity|exact Hnr]|].
          destruct (H4 r' Hi) as (y & Hy & Hny). exists y. split; [right; exact Hy|exact Hny]. }
  destruct G as (rs & H1 & H2 & H3 & _). rewrite <- H2, <- (seq_length b 0). apply NoDup_incl_length; [exact H1|].
  intros r Hr. apply in_seq. specialize (H3 r Hr). lia.
Qed.

(** Memories that some run of the call leaves behind. *)
Definition outcome {T} (C : call T) (w : Z -> T) : Prop :=
  exists M k s, reach C M k s /\ returned s tt /\ mem (sh s) = w.

(** Different contents. *)
Definition apart {T} (C : call T) (w w' : Z -> T) : Prop := exists i, cCells C i /\ w i <> w' i.

Section R.
Variables (pl : plat) (tn : tuning).
Hypothesis Hpl : platOk pl.
Hypothesis Htn : tuningOk pl tn.
Context {T : Type} (C : call T).
Hypothesis HC : sortCall pl tn C.

Lemma outcome_rounds : exists Out, oneEach C Out /\
  forall w, outcome C w -> exists r, Z.of_nat r <= Z.max 0 (cLen C - (recLimit tn C - 1)) /\ Out r w.
Proof.
  destruct (call_exactly pl tn T C Hpl Htn HC) as (Out & HO & HX). exists Out. split; [exact HO|].
  intros w (M & k & s & (mg0 & Hmg & He) & Hret & <-).
  assert (HW := HX MInit (or_introl eq_refl)). unfold exactly in HW.
  destruct (ad_return _ _ _ M (cCells C) _ (call_finite pl tn T C Hpl HC) _ _ _ mg0 MInit Hmg (or_intror eq_refl) HW
    _ k s tt (fun _ _ _ h => h) He Hret) as [[_ H] _]. exact H.
Qed.

Theorem results_count ws : ForallOrdPairs (apart C) ws -> (forall w, In w ws -> outcome C w) ->
  Z.of_nat (length ws) <= Z.max 1 (cLen C - (recLimit tn C - 2)).
Proof.
  intros Hd Ho. destruct outcome_rounds as (Out & H1 & H2).
  set (b := Z.max 0 (cLen C - (recLimit tn C - 1))) in *.
  assert (H := numbered (apart C) (fun w r => Out r w) (S (Z.to_nat b))).
  cut (length ws <= S (Z.to_nat b))%nat; [lia|]. apply H; [|exact Hd|].
  - intros w w' r Hw Hw' (i & Hi & Hne). apply Hne. symmetry. apply (H1 r w w' Hw Hw' i Hi).
  - intros w Hw. destruct (H2 w (Ho w Hw)) as (r & Hr & Hout). exists r. split; [lia|exact Hout].
Qed.

Lemma results_short w w' : cLen C < recLimit tn C -> outcome C w -> outcome C w' ->
  forall i, cCells C i -> w' i = w i.
Proof.
  intros HL Hw Hw' i Hi. destruct outcome_rounds as (Out & H1 & H2).
  destruct (H2 w Hw) as (r & Hr & Ho). destruct (H2 w' Hw') as (r' & Hr' & Ho').
  assert (r = O) by lia. assert (r' = O) by lia. subst r r'. exact (H1 O w w' Ho Ho' i Hi).
Qed.

End R.

(** ** MaxGor at most 1 *)

Section Typed.
Variables (pl : plat) (tn : tuning) (e : ety).
Hypothesis Hpl : platOk pl.
Hypothesis Htn : tuningOk pl tn.
Local Existing Instance pword.
Notation kd := (kindOf pl e).
Let LW : laws kd (okKey pl e) := laws_all pl e Hpl.

Lemma settle_sort (Rg : Z -> Prop) s v : (forall i, reg s i -> Rg i) -> 0 <= len s -> len s < 2 * wq ->
  okOn kd (okKey pl e) s v -> exists w, settles (procs pl tn e) 1 Rg (sort kd tn (mI pl) s) v w.
Proof.
  intros HRg H0 Hb Hok. assert (HIns := tuning_ins kd tn Htn). assert (HRec := tuning_rec kd tn Htn).
  assert (HS := swp_seqPart kd tn (okKey pl e) LW HIns HRec s v H0 Hb Hok).
  apply (swp_exactly (body kd tn) _ _ _ (fun _ w => sortedP kd s v w)) in HS.
  destruct (swp_outcome _ _ _ _ _ _ _ _ HS) as ([] & m & w & Hw). exists w.
  unfold sort. set (rest := fun single : bool => _).
  assert (Hrest : settles (procs pl tn e) 1 Rg (rest true) v w).
  { eapply settles_swp; [exact HRg|exact HRg|exact HS|]. cbv beta. intros [] m' w' [_ Y] i _.
    destruct (yields_fun _ _ _ _ _ _ _ _ _ (proj2 Hw) Y) as [_ ->]. reflexivity. }
  destruct (Z.ltb_spec (len s) (minConc kd tn)) as [L|L].
  - apply (settles_view _ _ _ (rest true)); [reflexivity|exact Hrest].
  - eapply s_max; [reflexivity|]. intros mg Hmg.
    apply (settles_view _ _ _ (rest (mg <=? 1))); [reflexivity|]. destruct (Z.leb_spec mg 1); [exact Hrest|lia].
Qed.

Lemma settle_typed opt s m0 : typedSlice pl e m0 s -> sortable e opt (contents m0 s) ->
  exists w, settles (procs pl tn e) 1 (cellsOf s) (sortProg pl tn opt e s) m0 w.
Proof.
  intros [[H0 Hb] Hty] Hsrt. rewrite (intSize_eq pl) in Hb. rewrite contents_forall in Hty.
  unfold sortProg, sortLive. destruct (isFloat e) eqn:Ef.
  - assert (HS := swp_prepass (procs pl tn e) (selfNe e) opt s m0 O H0).
    eassert (HS1 := swp_exactly (procs pl tn e) _ _ _ (fun s' v => _ /\ _) _ _ (HS _)). Unshelve.
    2:{ destruct Hsrt as [->|[->|Hn]]; auto. right; right. rewrite contents_forall in Hn. intros i Hi.
        specialize (Hn i Hi). rewrite <- selfNe_nan in Hn. destruct (selfNe e (m0 i)); congruence. }
    cbv beta in HS1. destruct (swp_outcome _ _ _ _ _ _ _ _ HS1) as (s' & m & v' & [(Hpre & _) Y]).
    destruct Hpre as (Hp & Hin & Hlen & _).
    destruct (settle_sort (cellsOf s) s' v') as (w & Hw).
    + intros i Hi. apply Hin. exact Hi.
    + lia.
    + lia.
    + assert (Hv : forall i, reg s i -> wellTyped pl e (v' i)) by (apply (permR_forall _ _ _ _ (wellTyped pl e) Hp); exact Hty).
      intros i Hi. destruct (Hin i Hi) as [Hr Hz]. apply okKey_of; [auto|]. rewrite <- selfNe_nan. congruence.
    + exists w. eapply settles_bind; [| |eapply swp_conseq; [exact HS1|]]; [intros i Hi; exact Hi|intros i Hi; exact Hi|].
      cbv beta. intros s2 m2 v2 _ [_ Y2]. destruct (yields_fun _ _ _ _ _ _ _ _ _ Y Y2) as [-> ->]. exact Hw.
  - apply settle_sort; [auto|exact H0|lia|]. intros i Hi. apply okKey_of; [auto|]. apply nonfloat_nan; exact Ef.
Qed.

End Typed.

Lemma settle_lsw pl tn T lt lq cap n (m0 : Z -> T) : platOk pl -> tuningOk pl tn ->
  consistent lt lq -> 0 <= n <= cap -> 11 * n + 18 < 10 * intSize pl ->
  let C := lswCallBy pl tn lt lq cap n m0 in
  exists w, settles (cProcs C) 1 (cCells C) (cProg C) m0 w.
Proof.
  intros Hpl Htn Hlt Hn Hb C. assert (T1 := tuning_ins (lkind lq) tn Htn). assert (T2 := tuning_rec (lkind lq) tn Htn). assert (T3 := tuning_rec2 (lkind lq) tn Htn).
  assert (HI := intSize_wq pl (proj1 Hpl)).
  unfold C, lswCallBy. cbn [cP cProcs cProg cCells]. unfold lswSort. rewrite iw_small by lia. cbv zeta.
  assert (HS := swp_lseqPart lt lq Hlt cap tn (mI pl) (meanEven_of pl Hpl) T1 T2 T3 n m0 ltac:(lia) ltac:(lia) ltac:(lia)).
  cbv zeta in HS.
  apply (swp_exactly (lswBody (Wd := pword pl) lt cap tn (mI pl)) _ _ _ (fun _ w => sortedP (lkind lq) (Slice 0 n) m0 w)) in HS.
  destruct (swp_outcome _ _ _ _ _ _ _ _ HS) as ([] & m & w & Hw). exists w.
  set (rest := fun single : bool => _).
  assert (Hrest : settles (lswBody (Wd := pword pl) lt cap tn (mI pl)) 1 (cellsOf (Slice 0 n)) (rest true) m0 w).
  { eapply settles_swp; [| |exact HS|]; [intros i Hi; exact Hi|intros i Hi; exact Hi|]. cbv beta. intros [] m' w' [_ Y] i _.
    destruct (yields_fun _ _ _ _ _ _ _ _ _ (proj2 Hw) Y) as [_ ->]. reflexivity. }
  destruct (n - 1 <=? lswConc tn).
  - apply (settles_view _ _ _ (rest true)); [reflexivity|exact Hrest].
  - eapply s_max; [reflexivity|]. intros mg Hmg.
    apply (settles_view _ _ _ (rest (mg <=? 1))); [reflexivity|]. destruct (Z.leb_spec mg 1); [exact Hrest|lia].
Qed.

Lemma results_single pl tn T (C : call T) : platOk pl -> tuningOk pl tn -> sortCall pl tn C ->
  exists w, forall M k s, M <= 1 -> reach C M k s -> returned s tt -> forall i, cCells C i -> mem (sh s) i = w i.
Proof.
  intros Hpl Htn HC.
  assert (H : exists w, settles (cProcs C) 1 (cCells C) (cProg C) (cInit C) w).
  { destruct HC; [apply settle_typed; assumption|apply settle_lsw; assumption]. }
  destruct H as [w Hw]. exists w. intros M k s HM (mg0 & Hmg & He) Hret i Hi.
  assert (He' : exec (cProcs C) 1 (cCells C) k (start (cProg C) (cInit C) mg0) s).
  { clear - He HM. induction He as [s|n s s1 s2 H IH Hs|n s s1 s2 H IH Hs]; [constructor|eapply exec_prog; [exact (IH)|exact Hs]|].
    eapply exec_env; [exact IH|]. destruct Hs. constructor; [lia|assumption]. }
  refine (settles_returned (cProcs C) 1 (cCells C) (cProg C) _ w k s tt _ _ He' Hret i Hi); [exact Hw|cbn; lia].
Qed.

(** The same result however it is sorted: with MaxGor at most 1, or with few elements. *)
Theorem reproducible pl tn T (C : call T) M k s M' k' s' : platOk pl -> tuningOk pl tn -> sortCall pl tn C ->
  (M <= 1 /\ M' <= 1) \/ cLen C < recLimit tn C ->
  reach C M k s -> returned s tt -> reach C M' k' s' -> returned s' tt ->
  forall i, cCells C i -> mem (sh s') i = mem (sh s) i.
Proof.
  intros Hpl Htn HC [[H1 H2]|H] Hr He Hr' He' i Hi.
  - destruct (results_single pl tn T C Hpl Htn HC) as [w Hw].
    rewrite (Hw M k s), (Hw M' k' s') by assumption. reflexivity.
  - apply (results_short pl tn Hpl Htn C HC (mem (sh s)) (mem (sh s')) H); [exists M, k, s|exists M', k', s'|exact Hi]; auto.
Qed.
