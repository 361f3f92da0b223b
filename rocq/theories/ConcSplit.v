(** * The first split of a concurrent sort, on the machine *)

From Coq Require Import List ZArith Lia Bool Permutation.
From Verif Require Import Lang SeqLogic ConcLogic Adequacy Base Scalar Typed SeqOps ScalarFacts TypedPart
  TypedPivot TypedShort ConcSort TypedLong TypedSort Kinds Spec KindsFacts TypedApi Lsw LswSeq LswPart LswLong LswSort Calls
  SeqAdequacy Guarantee TypedFacts LswFacts.
Import ListNotations.
Open Scope Z_scope.

Local Arguments Z.mul : simpl never.
Local Arguments Z.add : simpl never.
Local Arguments Z.sub : simpl never.
Local Arguments Z.pow : simpl never.

Lemma properSplit_ext e s v v' w k : (forall i, cellsOf s i -> w i = v' i) -> properSplit e s v v' k -> properSplit e s v w k.
Proof.
  intros Hv (Hk & HP & HO). split; [exact Hk|].
  split; [rewrite (contents_map v' w s Hv); exact HP|].
  intros i j Hi Hj. rewrite !Hv by (unfold cellsOf; lia). apply HO; assumption.
Qed.

Lemma properSplitBy_ext {T} (lq : T -> T -> bool) s v v' w k :
  (forall i, cellsOf s i -> w i = v' i) -> properSplitBy lq s v v' k -> properSplitBy lq s v w k.
Proof.
  intros Hv (Hk & HP & HO). split; [exact Hk|].
  split; [rewrite (contents_map v' w s Hv); exact HP|].
  intros i j Hi Hj. rewrite !Hv by (unfold cellsOf; lia). apply HO; assumption.
Qed.

(** A sort's test of MaxGor, the allocation of its counter and channel and its first split, done by
    two goroutines (X:319-345); with MaxGor <= 1 the split of the single-goroutine sort. *)
Definition splitConc pl e (s : slice) : cmd (proc (keyT e)) (elem e) Z :=
  LoadMax (fun mg => if mg <=? 1 then splitLong pl e s else MakeSv (partCon (Wd := pword pl) (kindOf pl e) (mI pl) s)).

Lemma wp_splitConc pl tn e s v z : platOk pl -> typedSlice pl e v s ->
  Forall (fun x => ~ nan e x) (contents v s) -> 24 <= len s ->
  wp (Gr := Grain O false) (procs pl tn e) (wpT (Gr := Grain O false) (procs pl tn e) O) O
    (fun k _ g => forall w, agrees g w -> properSplit e s v w k)
    (Z.to_nat (2 + cPC (len s) + cPivot + cPart (len s))) (splitConc pl e s) (Gst (cellsOf s) (cellsOf s) v MInit z).
Proof.
  intros Hpl Hty HN Hl. assert (Hok := okOn_typed pl e s v Hty HN). assert (LW := laws_all pl e Hpl).
  assert (Hlen : len s < 2 * @wq (pword pl)) by (rewrite <- (intSize_eq pl); apply Hty).
  unfold splitConc. apply wp_loadmax; [unfold cPC, cPart, cPivot; lia|exact I|]. intros mg Hmg.
  destruct (Z.leb_spec mg 1).
  - eapply wp_sapply; [typeclasses eauto|exact I|apply (swp_splitLong pl Hpl tn e s v O Hty HN); lia|lia|unfold cPC, cPart, cPivot; lia|auto|auto|].
    cbn [setval setseen dom rd val md seen]. intros k n v' Hk _ _. intros w Hw.
    eapply properSplit_ext; [|exact Hk]. exact Hw.
  - apply wp_makesv with (Pr := fun _ => True); [unfold cPC, cPart, cPivot; lia|reflexivity|exact H| |].
    { apply (atLeast_range _ (off s)). cbn. unfold cellsOf. intros i Hi. lia. }
    assert (Htw : twice (Gr := Grain O false) (cellsOf s)) by (apply (atLeast_range _ (off s)); unfold cellsOf; cbn; intros i Hi; lia).
    eapply wp_apply; [eapply (wp_partCon (Wd := pword pl) (kindOf pl e) tn (mI pl) (meanOk_of pl Hpl) (okKey pl e) LW) with (a := Act (Some _) _ false true None)|..].
    all: try (unfold cPC, cPart, cPivot; lia). 
    all: try exact Htw; cbn; try exact Hlen; try exact Hok; try reflexivity; try discriminate; auto.
    { split; reflexivity. }
    intros k n g' (a' & _ & _ & _ & _ & _ & _ & Hrd & _ & Hp & _) _ w Hw.
    eapply properSplit_ext; [|eapply (parted_spec pl Hpl); [exact Hty|exact HN|exact Hp]].
    intros i Hi. apply Hw. apply Hrd. exact Hi.
Qed.

Lemma typed_conc_split pl tn e s m0 mg0 M k st r : platOk pl -> typedSlice pl e m0 s ->
  Forall (fun x => ~ nan e x) (contents m0 s) -> 24 <= len s -> 0 <= mg0 <= M ->
  exec (procs pl tn e) M (cellsOf s) k (start (splitConc pl e s) m0 mg0) st ->
  returned st r -> properSplit e s m0 (mem (sh st)) r.
Proof.
  intros Hpl Hty HN Hl Hmg He Hr.
  eapply (ad_result _ O O M (cellsOf s)) with (Post := fun r w => properSplit e s m0 w r); [| |right; reflexivity| | |exact He|exact Hr].
  - unfold cellsOf. apply (slice_finite pl _ _ Hpl). apply Hty.
  - exact Hmg.
  - apply (wp_splitConc pl tn e s m0 0 Hpl Hty HN Hl).
  - cbv beta. auto.
Qed.

(** The same for Sort (sortyLsw.go:337-360). *)
Definition lswSplitConc pl {T} (lt : T -> T -> bool) cap (lo hi : Z) : cmd lproc T Z :=
  LoadMax (fun mg => if mg <=? 1 then lswSplitLong (Wd := pword pl) lt cap (mI pl) lo hi
                     else MakeSv (lswPartCon (Wd := pword pl) lt cap (mI pl) lo hi)).

Lemma wp_lswSplitConc pl tn T (lt lq : T -> T -> bool) cap lo hi v z : platOk pl -> consistent lt lq ->
  0 <= lo -> hi < cap -> 11 * hi + 29 < 10 * intSize pl -> 18 <= hi - lo + 1 ->
  wp (Gr := Grain O false) (lswBody (Wd := pword pl) lt cap tn (mI pl)) (wpT (Gr := Grain O false) (lswBody (Wd := pword pl) lt cap tn (mI pl)) O) O
    (fun l _ g => forall w, agrees g w -> properSplitBy lq (rng lo hi) v w (l - lo))
    (Z.to_nat (2 + cPC2 (hi - lo + 1) + cPivot2 + cPartL (hi - lo + 1))) (lswSplitConc pl lt cap lo hi)
    (Gst (cellsOf (rng lo hi)) (cellsOf (rng lo hi)) v MInit z).
Proof.
  intros Hpl Hlt H0 Hcap Hb0 Hl.
  assert (Hb : 11 * hi + 29 < 20 * @wq (pword pl)) by (rewrite (intSize_eq pl) in Hb0; lia).
  assert (Hwq := proj2 (intSize_wq pl (proj1 Hpl))).
  unfold lswSplitConc. apply wp_loadmax; [unfold cPC2, cPartL, cPivot2; lia|exact I|]. intros mg Hmg.
  destruct (Z.leb_spec mg 1).
  - eapply wp_sapply; [typeclasses eauto|exact I|apply (swp_lswSplitLong (Wd := pword pl) lt lq Hlt cap tn (mI pl) lo hi v O (meanEven_of pl Hpl) H0 Hl Hcap Hb)|lia|unfold cPC2, cPartL, cPivot2; lia|auto|auto|].
    cbn [setval setseen dom rd val md seen]. intros k n v' Hk _ _. intros w Hw.
    eapply properSplitBy_ext; [|exact Hk]. exact Hw.
  - apply wp_makesv with (Pr := fun _ => True); [unfold cPC2, cPartL, cPivot2; lia|reflexivity|exact H| |].
    { apply (atLeast_range _ lo). cbn. unfold cellsOf, rng. cbn. intros i Hi. lia. }
    assert (Htw : twice (Gr := Grain O false) (cellsOf (rng lo hi))) by (apply (atLeast_range _ lo); unfold cellsOf, rng; cbn; intros i Hi; lia).
    eapply wp_apply; [eapply (wp_lswPartCon (Wd := pword pl) lt lq Hlt cap tn (mI pl) (meanOk_of pl Hpl) (meanEven_of pl Hpl)) with (a := Act (Some _) _ false true None)|..].
    all: try (unfold cPC2, cPartL, cPivot2; lia). 
    all: try exact Htw; cbn; try reflexivity; try discriminate; auto.
    { split; reflexivity. }
    intros k n g' (a' & _ & _ & _ & _ & _ & _ & Hrd & _ & Hp & _) _ w Hw.
    eapply properSplitBy_ext; [|eapply (parted_specBy lt lq Hlt); exact Hp].
    intros i Hi. apply Hw. apply Hrd. exact Hi.
Qed.

Lemma lsw_conc_split pl tn T (lt lq : T -> T -> bool) cap lo hi m0 mg0 M k st l : platOk pl -> consistent lt lq ->
  0 <= lo -> hi < cap -> 11 * hi + 29 < 10 * intSize pl -> let s := Slice lo (hi - lo + 1) in 18 <= len s -> 0 <= mg0 <= M ->
  exec (lswBody (Wd := pword pl) lt cap tn (mI pl)) M (cellsOf s) k (start (lswSplitConc pl lt cap lo hi) m0 mg0) st ->
  returned st l -> properSplitBy lq s m0 (mem (sh st)) (l - lo).
Proof.
  intros Hpl Hlt H0 Hcap Hb s Hl Hmg He Hr.
  eapply (ad_result _ O O M (cellsOf s)) with (Post := fun l w => properSplitBy lq s m0 w (l - lo)); [| |right; reflexivity| | |exact He|exact Hr].
  - unfold cellsOf. apply (slice_finite pl _ _ Hpl). unfold s in *. cbn [len off] in *. clear - H0 Hb Hl. lia.
  - exact Hmg.
  - apply (wp_lswSplitConc pl tn T lt lq cap lo hi m0 0 Hpl Hlt H0 Hcap Hb Hl).
  - cbv beta. auto.
Qed.
