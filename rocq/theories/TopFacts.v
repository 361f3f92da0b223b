(** * Remaining facts behind the property theorems *)

From Coq Require Import List ZArith Lia Bool Permutation Sorted.
From Verif Require Import Lang SeqLogic ConcLogic Adequacy SeqAdequacy Base Scalar Typed SeqOps ScalarFacts
  TypedPart TypedShort TypedSort Kinds Spec KindsFacts TypedApi TypedCheck SearchFacts Lsw LswFacts Trace HappensBefore Calls Guarantee TraceFacts AnyFacts Unique TypedFacts Swaps Holes.
Import ListNotations.
Open Scope Z_scope.
Local Arguments Z.mul : simpl never.
Local Arguments Z.add : simpl never.
Local Arguments Z.sub : simpl never.
Local Arguments Z.pow : simpl never.

(** ** Completion *)

(** From every reachable state the call can be completed; with the step bound and the
    absence of deadlocks: every execution that is continued long enough is complete. *)
Lemma can_finish pl tn T (C : call T) M k s : platOk pl -> tuningOk pl tn -> sortCall pl tn C ->
  reach C M k s -> exists j s', exec (cProcs C) M (cCells C) j s s' /\ returned s' tt.
Proof.
  intros Hpl Htn HC.
  set (B := 100 * cLen C * cLen C + 6 * cLen C + 20).
  assert (G : forall n k s, reach C M k s -> B - Z.of_nat k < Z.of_nat n ->
    exists j s', exec (cProcs C) M (cCells C) j s s' /\ returned s' tt).
  { induction n as [|n IH]; intros k0 s0 Hr Hn.
    - assert (H := g_steps pl tn Hpl Htn C HC M k0 s0 Hr). fold B in H. lia.
    - destruct (g_progress pl tn Hpl Htn C HC M k0 s0 Hr) as [[[] Hret]|[s1 Hs]].
      + exists O, s0. split; [constructor|exact Hret].
      + destruct Hr as (mg & Hmg & He).
        destruct (IH (S k0) s1) as (j & s' & He' & Hret).
        { exists mg. split; [exact Hmg|]. eapply exec_prog; eauto. }
        { lia. }
        exists (j + 1)%nat, s'. split; [|exact Hret]. eapply exec_trans; [|exact He'].
        eapply exec_prog; [constructor|exact Hs]. }
  intro Hr. apply (G (S (Z.to_nat B)) k s Hr). lia.
Qed.

(** ** Empty and one-element slices *)

Section Tiny.
Variable pl : plat.
Variable tn : tuning.
Hypothesis Htn : tuningOk pl tn.
Variable e : ety.
Notation kd := (kindOf pl e).

Lemma swp_sort_tiny s v D : 0 <= len s <= 1 ->
  swp (procs pl tn e) D 2 (cellsOf s) empty (fun _ _ v' => v' = v) (sort kd tn (mI pl) s) v.
Proof.
  intro Hs. assert (T1 := tuning_ins kd tn Htn). assert (T2 := tuning_rec kd tn Htn).
  assert (T3 := tuning_rec2 kd tn Htn). unfold TypedShort.maxIns, TypedShort.maxRec in *.
  unfold sort. apply swp_bind. unfold minConc.
  set (mr := if fc kd then maxLenRecFC tn else maxLenRec tn) in *.
  set (mi := if fc kd then maxLenInsFC tn else maxLenIns tn) in *.
  rewrite iw_small by lia. destruct (Z.ltb_spec (len s) (2 * (mr + 1))); [|lia]. apply swp_ret.
  destruct (Z.ltb_spec mr (len s)); [lia|]. destruct (Z.ltb_spec mi (len s)); [lia|].
  unfold insertion. apply swp_loop; [lia|]. destruct (Z.ltb_spec 1 (len s)); [lia|].
  apply swp_ret. reflexivity.
Qed.

Lemma swp_sget D n (Rd Wr : Z -> Prop) (Q : elem e -> nat -> (Z -> elem e) -> Prop) s i v :
  (0 < n)%nat -> 0 <= i < len s -> Rd (off s + i) -> Q (v (off s + i)) (n - 1)%nat v ->
  swp (procs pl tn e) D n Rd Wr Q (sget s i) v.
Proof.
  intros Hn Hi HR HQ. unfold sget. destruct (Z.leb_spec 0 i); [|lia]. destruct (Z.ltb_spec i (len s)); [|lia].
  cbn [andb]. apply swp_read; auto. apply swp_ret. exact HQ.
Qed.

Lemma swp_reslice D n (Rd Wr : Z -> Prop) (Q : slice -> nat -> (Z -> elem e) -> Prop) s l h v :
  0 <= l <= h -> h <= len s -> Q (Slice (off s + l) (h - l)) n v ->
  swp (procs pl tn e) D n Rd Wr Q (reslice s l h) v.
Proof.
  intros H1 H2 HQ. unfold reslice. destruct (Z.leb_spec 0 l); [|lia]. destruct (Z.leb_spec l h); [|lia].
  destruct (Z.leb_spec h (len s)); [|lia]. cbn [andb]. apply swp_ret. exact HQ.
Qed.

Lemma swp_sortProg_tiny opt s v D : 0 <= len s <= 1 ->
  swp (procs pl tn e) D 8 (cellsOf s) empty (fun _ _ v' => v' = v) (sortProg pl tn opt e s) v.
Proof.
  intro Hs. unfold sortProg, sortLive.
  assert (Fin : forall n o l, (2 <= n)%nat -> 0 <= l <= len s -> off s <= o -> o + l <= off s + len s ->
    swp (procs pl tn e) D n (cellsOf s) empty (fun _ _ v' => v' = v) (sort kd tn (mI pl) (Slice o l)) v).
  { intros n o l Hn Hl Ho1 Ho2.
    eapply swp_apply; [apply (swp_sort_tiny (Slice o l) v D); simpl; lia|lia|exact Hn| |auto|].
    - intros i Hi. unfold cellsOf in *. simpl in *. lia.
    - cbv beta. intros _ m v' E _ _. exact E. }
  assert (Eta : Slice (off s) (len s) = s) by (destruct s; reflexivity).
  destruct (isFloat e).
  2:{ rewrite <- Eta. apply Fin; lia. }
  apply swp_bind. unfold prepass. destruct (opt =? NaNlarge); [|destruct (opt =? NaNsmall)].
  - unfold nanToEnd. apply swp_bind. apply swp_loop; [lia|].
    destruct (Z.leb_spec 0 (len s - 1)) as [C|C].
    + apply swp_bind, swp_sget; [lia|lia|unfold cellsOf; lia|].
      destruct (selfNe e (v (off s + (len s - 1)))) eqn:E1.
      * apply swp_ret. apply swp_loop; [lia|]. destruct (Z.leb_spec 0 (len s - 1 - 1)); [lia|]. apply swp_ret.
        apply swp_reslice; [lia|lia|]. apply Fin; lia.
      * apply swp_bind, swp_sget; [lia|lia|unfold cellsOf; lia|].
        replace (len s - 1) with 0 in E1 by lia. rewrite E1.
        apply swp_ret. apply swp_loop; [lia|]. destruct (Z.leb_spec (0 + 1) (len s - 1)); [lia|]. apply swp_ret.
        apply swp_reslice; [lia|lia|]. apply Fin; lia.
    + apply swp_ret. apply swp_reslice; [lia|lia|]. apply Fin; lia.
  - unfold nanToStart. apply swp_bind. apply swp_loop; [lia|].
    destruct (Z.leb_spec 0 (len s - 1)) as [C|C].
    + apply swp_bind, swp_sget; [lia|lia|unfold cellsOf; lia|].
      destruct (selfNe e (v (off s + 0))) eqn:E1.
      * apply swp_ret. apply swp_loop; [lia|]. destruct (Z.leb_spec (0 + 1) (len s - 1)); [lia|]. apply swp_ret.
        apply swp_reslice; [lia|lia|]. apply Fin; lia.
      * apply swp_bind, swp_sget; [lia|lia|unfold cellsOf; lia|].
        replace 0 with (len s - 1) in E1 by lia. rewrite E1.
        apply swp_ret. apply swp_loop; [lia|]. destruct (Z.leb_spec 0 (len s - 1 - 1)); [lia|]. apply swp_ret.
        apply swp_reslice; [lia|lia|]. apply Fin; lia.
    + apply swp_ret. apply swp_reslice; [lia|lia|]. apply Fin; lia.
  - apply swp_ret. rewrite <- Eta. apply Fin; lia.
Qed.

End Tiny.

Lemma typed_tiny pl tn opt e s m0 M k st : tuningOk pl tn -> 0 <= len s <= 1 ->
  reach (typedCall pl tn opt e s m0) M k st ->
  thr st = [] /\ chans (sh st) = 0 /\ (k <= 8)%nat /\ ~ panicked st /\
  (forall x w, In (Some (x, w)) (accesses st) -> w = false /\ cellsOf s x) /\
  (returned st tt \/ exists st', pstep (procs pl tn e) st st').
Proof.
  intros Htn Hs (mg & Hmg & He). assert (HS := swp_sortProg_tiny pl tn Htn e opt s m0 O Hs).
  destruct (seq_safe _ _ _ M _ _ _ _ _ mg HS k st He) as (H1 & H2 & H3 & H4 & H5 & H6 & H7).
  split; [exact H1|]. split; [exact H2|]. split; [lia|]. split; [exact H4|]. split.
  - intros x w Hin. specialize (H5 x w Hin). destruct w; [contradiction H5|]. split; [reflexivity|exact H5].
  - destruct H7 as [[[] H]|H]; auto.
Qed.

(** IsSorted of at most one element asks nothing. *)
Lemma lswIsSorted_tiny pl {T} (lt : T -> T -> bool) cap body n m0 mg0 M Rg k st :
  platOk pl -> - intSize pl < n <= 1 -> exec body M Rg k (start (lswIsSorted lt cap n) m0 mg0) st ->
  (k <= 1)%nat /\ (forall x w, ~ In (Some (x, w)) (accesses st)) /\ ~ panicked st /\
  (returned st 0 \/ exists st', pstep body st st') /\ forall r, returned st r -> r = 0.
Proof.
  intros Hpl Hn He. assert (HI := intSize_wq pl (proj1 Hpl)).
  assert (HS : swp body O 1 empty empty (fun r _ v' => r = 0) (lswIsSorted lt cap n) m0).
  { unfold lswIsSorted. rewrite iw_small by lia. apply swp_loop; [lia|]. destruct (Z.ltb_spec 0 (n - 1)); [lia|].
    apply swp_ret. reflexivity. }
  assert (He' : exec body M empty k (start (lswIsSorted lt cap n) m0 mg0) st).
  { clear HS. induction He; [constructor|eapply exec_prog; eauto|eapply exec_env; eauto].
    destruct H. constructor; [assumption|]. intros i []. }
  destruct (seq_safe _ _ _ M _ _ _ _ _ mg0 HS k st He') as (H1 & H2 & H3 & H4 & H5 & H6 & H7).
  assert (HR : forall r, returned st r -> r = 0).
  { intros r Hr. destruct (seq_return _ _ _ M _ _ _ _ _ mg0 HS k st r He' Hr) as (m & v & -> & _). reflexivity. }
  split; [lia|]. split.
  { intros x w Hin. specialize (H5 x w Hin). destruct w; exact H5. }
  split; [exact H4|]. split; [|exact HR].
  destruct H7 as [[r Hr]|H]; [left; rewrite <- (HR r Hr); exact Hr|right; exact H].
Qed.

(** ** Types *)

Lemma kinds_cases k : 1 <= k <= 26 ->
  In k [1; 2; 3; 4; 5; 6; 7; 8; 9; 10; 11; 12; 13; 14; 15; 16; 17; 18; 19; 20; 21; 22; 23; 24; 25; 26].
Proof. intro H. simpl. lia. Qed.

Lemma rkind_range t : rwf t -> 1 <= rkind t <= 26.
Proof. destruct t; simpl; lia. Qed.

Lemma dispatchSlice_doc wb t e : wb = 4 \/ wb = 8 -> rwf t -> (dispatchSlice wb t = Some e <-> docSlice wb t e).
Proof.
  intros Hwb Hw. split.
  - destruct t as [t|k]; [|discriminate]. destruct t as [t|k].
    + assert (R := rkind_range t Hw). destruct t as [t|k].
      { destruct Hwb as [-> | ->]; discriminate. }
      intro H. cbn [rwf rkind] in Hw, R. apply kinds_cases in R. simpl in R.
      destruct Hwb as [-> | ->];
        repeat (destruct R as [<-|R]; [try discriminate H; inversion H; constructor|]); destruct R.
    + cbn [rwf] in Hw. destruct Hw as [R _]. apply kinds_cases in R. simpl in R. intro H.
      destruct Hwb as [-> | ->];
        repeat (destruct R as [<-|R]; [try discriminate H; inversion H; try constructor; simpl; auto|]); destruct R.
  - intro H. destruct H; destruct Hwb as [E|E]; try discriminate E; subst; try reflexivity;
      try (destruct H as [<-|[<-|[<-|[]]]]; reflexivity).
Qed.

Lemma dispatchLen_doc wb t e : wb = 4 \/ wb = 8 -> rwf t -> (dispatchLen wb t = Some e <-> docLen t e).
Proof.
  intros Hwb Hw. split.
  - destruct t as [t|k]; [|discriminate]. destruct t as [t|k].
    + assert (R := rkind_range t Hw). intro H. unfold dispatchLen in H. cbn [extractSK rkind] in H.
      change ((23 =? 12) || (23 =? 22) || (23 =? 26)) with false in H. cbn in H.
      destruct (Z.eqb_spec (100 + rkind t) 24); [lia|]. destruct (Z.leb_spec 100 (100 + rkind t)); [|lia].
      inversion H. constructor.
    + cbn [rwf] in Hw. destruct Hw as [R _]. apply kinds_cases in R. simpl in R. intro H.
      destruct Hwb as [-> | ->];
        repeat (destruct R as [<-|R]; [try discriminate H; inversion H; constructor|]); destruct R.
  - intro H. destruct H; [destruct Hwb as [-> | ->]; reflexivity|]. assert (R := rkind_range t Hw).
    unfold dispatchLen. cbn [extractSK rkind]. cbn.
    destruct (Z.eqb_spec (100 + rkind t) 24); [lia|]. destruct (Z.leb_spec 100 (100 + rkind t)); [|lia]. reflexivity.
Qed.

Lemma dispatch_doc byLen wb t e : wb = 4 \/ wb = 8 -> (forall t', t = Some t' -> rwf t') ->
  (dispatch byLen wb t = Some e <-> docArg byLen wb t e).
Proof.
  intros Hwb Hw. destruct t as [t|]; [|split; [discriminate|intros []]].
  destruct byLen; [apply dispatchLen_doc|apply dispatchSlice_doc]; auto.
Qed.

Lemma panic_exec {P T R} (body : P -> cmd P T unit) M (Rg : Z -> Prop) k m0 mg0 (st : Lang.st P T R) :
  exec body M Rg k (start Panic m0 mg0) st ->
  k = O /\ panicked st /\ thr st = [] /\ chans (sh st) = 0 /\ forall i, Rg i -> mem (sh st) i = m0 i.
Proof.
  intro He. remember (start Panic m0 mg0) as s0 eqn:E0.
  assert (G : k = O /\ view (main st) = HPanic /\ thr st = [] /\ chans (sh st) = 0 /\
              forall i, Rg i -> mem (sh st) i = m0 i).
  { induction He as [s|j s s1 s2 He IH Hs|j s s1 s2 He IH Hs].
    - subst s. split; [reflexivity|]. split; [reflexivity|]. split; [reflexivity|]. split; [reflexivity|]. reflexivity.
    - exfalso. destruct (IH E0) as (-> & Hv & Ht & _).
      destruct Hs as [s1 s2 Hs| |]; [destruct Hs| |]; cbn [main thr sh] in *; try (destruct l1; discriminate); [|congruence].
      unfold exec_local in H. rewrite Hv in H. discriminate.
    - destruct (IH E0) as (-> & Hv & Ht & Hc & Hm). destruct Hs; cbn in *. do 4 (split; [assumption || reflexivity|]).
      intros i Hi. rewrite H0 by assumption. auto. }
  destruct G as (A & B & C & D & E). split; [exact A|]. split; [left; exact B|]. auto.
Qed.

(** Documented argument types are sorted as documented; all others, and nil, panic at once. *)
Lemma api_sort pl tn opt byLen t : wb pl = 4 \/ wb pl = 8 -> (forall t', t = Some t' -> rwf t') ->
  (forall e, docArg byLen (wb pl) t e -> apiSort pl tn opt byLen t = existT _ e (sortProg pl tn opt e)) /\
  ((forall e, ~ docArg byLen (wb pl) t e) -> forall s body M (Rg : Z -> Prop) m0 mg0 k st,
     exec body M Rg k (start (projT2 (apiSort pl tn opt byLen t) s) m0 mg0) st ->
     k = O /\ panicked st /\ thr st = [] /\ chans (sh st) = 0 /\ forall i, Rg i -> mem (sh st) i = m0 i).
Proof.
  intros Hwb Hw. assert (HD := dispatch_doc byLen (wb pl) t). split.
  - intros e He. apply HD in He; auto. unfold apiSort. rewrite He. reflexivity.
  - intros HN. unfold apiSort. destruct (dispatch byLen (wb pl) t) as [e|] eqn:E.
    + exfalso. apply (HN e). apply HD; auto.
    + cbn [projT2]. intros s body M Rg m0 mg0 k st. apply panic_exec.
Qed.

Lemma api_check pl opt byLen t : wb pl = 4 \/ wb pl = 8 -> (forall t', t = Some t' -> rwf t') ->
  (forall e, docArg byLen (wb pl) t e -> apiCheck pl opt byLen t = existT _ e (checkProg pl opt e)) /\
  ((forall e, ~ docArg byLen (wb pl) t e) -> forall s body M (Rg : Z -> Prop) m0 mg0 k st,
     exec body M Rg k (start (projT2 (apiCheck pl opt byLen t) s) m0 mg0) st ->
     k = O /\ panicked st /\ thr st = [] /\ chans (sh st) = 0 /\ forall i, Rg i -> mem (sh st) i = m0 i).
Proof.
  intros Hwb Hw. assert (HD := dispatch_doc byLen (wb pl) t). split.
  - intros e He. apply HD in He; auto. unfold apiCheck. rewrite He. reflexivity.
  - intros HN. unfold apiCheck. destruct (dispatch byLen (wb pl) t) as [e|] eqn:E.
    + exfalso. apply (HN e). apply HD; auto.
    + cbn [projT2]. intros s body M Rg m0 mg0 k st. apply panic_exec.
Qed.

(** ** Two calls at the same time *)

Lemma two_calls pl tn T (C1 C2 : call T) M s1 s2 : platOk pl -> tuningOk pl tn ->
  sortCall pl tn C1 -> sortCall pl tn C2 -> (forall i, cCells C1 i -> cCells C2 i -> False) ->
  reach2 C1 C2 M s1 s2 ->
  mem (sh s1) = mem (sh s2) /\
  (returned s1 tt -> cGoal C1 (mem (sh s1))) /\ (returned s2 tt -> cGoal C2 (mem (sh s2))) /\
  ~ panicked s1 /\ ~ panicked s2 /\ ~ race s1 /\ ~ race s2 /\
  (forall x w x' w', In (Some (x, w)) (accesses s1) -> In (Some (x', w')) (accesses s2) -> x <> x') /\
  (returned s1 tt \/ exists s1', pstep (cProcs C1) s1 s1') /\
  (returned s2 tt \/ exists s2', pstep (cProcs C2) s2 s2').
Proof.
  intros Hpl Htn H1 H2 Hd HR. destruct (reach2_reach pl tn T C1 C2 M s1 s2 Hpl Htn H1 H2 Hd HR) as (E & _ & _ & [k1 R1] & [k2 R2]).
  split; [exact E|].
  split; [intro Hr; apply (g_goal pl tn Hpl Htn C1 H1 M k1 s1 R1 tt Hr)|].
  split; [intro Hr; apply (g_goal pl tn Hpl Htn C2 H2 M k2 s2 R2 tt Hr)|].
  split; [apply (g_no_panic pl tn Hpl Htn C1 H1 M k1 s1 R1)|].
  split; [apply (g_no_panic pl tn Hpl Htn C2 H2 M k2 s2 R2)|].
  split; [apply (g_no_race pl tn Hpl Htn C1 H1 M k1 s1 R1)|].
  split; [apply (g_no_race pl tn Hpl Htn C2 H2 M k2 s2 R2)|].
  split.
  { intros x w x' w' A1 A2 ->. apply (Hd x').
    - apply (g_in_bounds pl tn Hpl Htn C1 H1 M k1 s1 R1 x' w A1).
    - apply (g_in_bounds pl tn Hpl Htn C2 H2 M k2 s2 R2 x' w' A2). }
  split.
  - destruct (g_progress pl tn Hpl Htn C1 H1 M k1 s1 R1) as [[[] H]|H]; auto.
  - destruct (g_progress pl tn Hpl Htn C2 H2 M k2 s2 R2) as [[[] H]|H]; auto.
Qed.

(** ** The sorters, per family of types *)

Lemma sorted_plain pl tn opt e s m0 M k st : platOk pl -> tuningOk pl tn ->
  isFloat e = false -> typedSlice pl e m0 s ->
  reach (typedCall pl tn opt e s m0) M k st -> returned st tt ->
  Permutation (contents (mem (sh st)) s) (contents m0 s) /\
  StronglySorted (le e) (contents (mem (sh st)) s).
Proof.
  intros Hpl Htn Hf Hty HR Hret.
  assert (Hso : sortable e opt (contents m0 s)).
  { right. right. apply Forall_forall. intros x _. apply nonfloat_nan. exact Hf. }
  assert (HC := call_typed pl tn e opt s m0 Hty Hso).
  destruct (g_goal pl tn Hpl Htn _ HC M k st HR tt Hret) as [[HP HO] _].
  split; [exact HP|]. eapply inOrder_nonfloat_inv; eauto.
Qed.

Lemma sorted_large pl tn e s m0 M k st : platOk pl -> tuningOk pl tn ->
  typedSlice pl e m0 s ->
  reach (typedCall pl tn 1 e s m0) M k st -> returned st tt ->
  Permutation (contents (mem (sh st)) s) (contents m0 s) /\
  exists x b, contents (mem (sh st)) s = x ++ b /\
    Forall (fun y => ~ nan e y) x /\ StronglySorted (le e) x /\ Forall (nan e) b.
Proof.
  intros Hpl Htn Hty HR Hret.
  assert (HC := call_typed pl tn e 1 s m0 Hty (or_introl eq_refl)).
  destruct (g_goal pl tn Hpl Htn _ HC M k st HR tt Hret) as [[HP HO] _].
  split; [exact HP|]. destruct HO as (a & x & b & E & Ha & Hx & Hb & HS & A & _).
  exists x, b. rewrite (A eq_refl) in E. auto.
Qed.

Lemma sorted_small pl tn e s m0 M k st : platOk pl -> tuningOk pl tn ->
  typedSlice pl e m0 s ->
  reach (typedCall pl tn (-1) e s m0) M k st -> returned st tt ->
  Permutation (contents (mem (sh st)) s) (contents m0 s) /\
  exists a x, contents (mem (sh st)) s = a ++ x /\
    Forall (nan e) a /\ Forall (fun y => ~ nan e y) x /\ StronglySorted (le e) x.
Proof.
  intros Hpl Htn Hty HR Hret.
  assert (HC := call_typed pl tn e (-1) s m0 Hty (or_intror (or_introl eq_refl))).
  destruct (g_goal pl tn Hpl Htn _ HC M k st HR tt Hret) as [[HP HO] _].
  split; [exact HP|]. destruct HO as (a & x & b & E & Ha & Hx & Hb & HS & _ & B).
  exists a, x. rewrite (B eq_refl), app_nil_r in E. auto.
Qed.

Lemma sorted_nanfree pl tn opt e s m0 M k st : platOk pl -> tuningOk pl tn ->
  typedSlice pl e m0 s -> Forall (fun y => ~ nan e y) (contents m0 s) ->
  reach (typedCall pl tn opt e s m0) M k st -> returned st tt ->
  Permutation (contents (mem (sh st)) s) (contents m0 s) /\
  StronglySorted (le e) (contents (mem (sh st)) s).
Proof.
  intros Hpl Htn Hty HN HR Hret.
  assert (HC := call_typed pl tn e opt s m0 Hty (or_intror (or_intror HN))).
  destruct (g_goal pl tn Hpl Htn _ HC M k st HR tt Hret) as [[HP HO] _].
  split; [exact HP|]. destruct HO as (a & x & b & E & Ha & Hx & Hb & HS & _).
  assert (HN' : Forall (fun y => ~ nan e y) (a ++ x ++ b)).
  { rewrite <- E. eapply Permutation_Forall; [apply Permutation_sym; exact HP|exact HN]. }
  apply Forall_app in HN'. destruct HN' as [N1 N2]. apply Forall_app in N2. destruct N2 as [_ N2].
  destruct a as [|y a]; [|inversion Ha; inversion N1; contradiction].
  destruct b as [|y b]; [|inversion Hb; inversion N2; contradiction].
  rewrite app_nil_r in E. exact (eq_ind_r (StronglySorted (le e)) HS E).
Qed.

Lemma sorted_lsw pl tn T (lt : T -> T -> bool) cap n m0 M k st : platOk pl -> tuningOk pl tn ->
  weakOrder lt -> 0 <= n <= cap -> 11 * n + 18 < 10 * intSize pl ->
  reach (lswCall pl tn lt cap n m0) M k st -> returned st tt ->
  Permutation (contents (mem (sh st)) (Slice 0 n)) (contents m0 (Slice 0 n)) /\
  noSmallerAfter lt (contents (mem (sh st)) (Slice 0 n)).
Proof.
  intros Hpl Htn Hlt Hn Hb HR Hret. assert (HC := call_lsw pl tn T lt cap n m0 Hlt Hn Hb).
  exact (proj1 (g_goal pl tn Hpl Htn _ HC M k st HR tt Hret)).
Qed.

(** Whatever irreflexive comparison is used, nothing is lost; and the result respects any order
    the comparison is consistent with. *)
Lemma sorted_by pl tn T (lt lq : T -> T -> bool) cap n m0 M k st : platOk pl -> tuningOk pl tn ->
  consistent lt lq -> 0 <= n <= cap -> 11 * n + 18 < 10 * intSize pl ->
  reach (lswCall pl tn lt cap n m0) M k st -> returned st tt ->
  Permutation (contents (mem (sh st)) (Slice 0 n)) (contents m0 (Slice 0 n)) /\
  noSmallerAfter lq (contents (mem (sh st)) (Slice 0 n)).
Proof.
  intros Hpl Htn Hlt Hn Hb HR Hret. assert (HC := call_by pl tn T lt lq cap n m0 Hlt Hn Hb).
  exact (proj1 (g_goal pl tn Hpl Htn _ HC M k st HR tt Hret)).
Qed.

Lemma any_comparison pl tn T (lt : T -> T -> bool) cap n m0 M k st : platOk pl -> tuningOk pl tn ->
  irreflexive lt -> 0 <= n <= cap -> 11 * n + 18 < 10 * intSize pl ->
  let C := lswCall pl tn lt cap n m0 in reach C M k st ->
  ~ panicked st /\ ~ race st /\ (forall x w, In (Some (x, w)) (accesses st) -> 0 <= x < n) /\
  Z.of_nat k <= 100 * n * n + 6 * n + 20 /\
  (exists j st', exec (cProcs C) M (cCells C) j st st' /\ returned st' tt) /\
  (returned st tt -> Permutation (contents (mem (sh st)) (Slice 0 n)) (contents m0 (Slice 0 n)) /\
     forall c, In c (thr st) -> exiting c).
Proof.
  intros Hpl Htn Hlt Hn Hb C HR.
  set (C0 := lswCallBy pl tn lt (fun _ _ => false) cap n m0).
  assert (HC : sortCall pl tn C0) by apply (call_by pl tn T lt _ cap n m0 (consistent_none lt Hlt) Hn Hb).
  split; [exact (g_no_panic pl tn Hpl Htn C0 HC M k st HR)|].
  split; [exact (g_no_race pl tn Hpl Htn C0 HC M k st HR)|].
  split; [exact (g_in_bounds pl tn Hpl Htn C0 HC M k st HR)|].
  split; [exact (g_steps pl tn Hpl Htn C0 HC M k st HR)|].
  split; [exact (can_finish pl tn T C0 M k st Hpl Htn HC HR)|].
  intro Hr. destruct (g_goal pl tn Hpl Htn C0 HC M k st HR tt Hr) as [[HP _] HE]. split; [exact HP|exact HE].
Qed.

(** ** Sort only exchanges *)

Lemma lsw_keeps pl tn T (lt : T -> T -> bool) cap n m0 M k st : platOk pl -> tuningOk pl tn ->
  irreflexive lt -> 0 <= n <= cap -> 11 * n + 18 < 10 * intSize pl -> reach (lswCall pl tn lt cap n m0) M k st ->
  exists v, Permutation (contents v (Slice 0 n)) (contents m0 (Slice 0 n)) /\
    forall x, 0 <= x < n -> ~ In (Some (x, true)) (accesses st) -> mem (sh st) x = v x.
Proof.
  intros Hpl Htn Hlt Hn Hb (mg0 & Hmg & He).
  set (C0 := lswCallBy pl tn lt (fun _ _ => false) cap n m0).
  assert (HC : sortCall pl tn C0) by apply (call_by pl tn T lt _ cap n m0 (consistent_none lt Hlt) Hn Hb).
  apply (keep (lswBody (Wd := pword pl) lt cap tn (mI pl)) M (Slice 0 n) (start (cProg C0) m0 mg0)) with (c := cProg C0) (mg0 := mg0) (k := k).
  - intros k1 s1 H1. apply (g_no_race pl tn Hpl Htn C0 HC M k1 s1). exists mg0. split; [exact Hmg|exact H1].
  - intros k1 s1 x w H1. apply (g_in_bounds pl tn Hpl Htn C0 HC M k1 s1). exists mg0. split; [exact Hmg|exact H1].
  - intro m. apply tidy_sort.
  - reflexivity.
  - exact He.
Qed.

Lemma lsw_permuted pl tn T (lt : T -> T -> bool) cap n m0 M k st : platOk pl -> tuningOk pl tn ->
  irreflexive lt -> 0 <= n <= cap -> 11 * n + 18 < 10 * intSize pl -> reach (lswCall pl tn lt cap n m0) M k st ->
  (forall x, ~ In (Some (x, true)) (accesses st)) ->
  Permutation (contents (mem (sh st)) (Slice 0 n)) (contents m0 (Slice 0 n)).
Proof.
  intros Hpl Htn Hlt Hn Hb HR Hw. destruct (lsw_keeps pl tn T lt cap n m0 M k st Hpl Htn Hlt Hn Hb HR) as (v & HP & HV).
  rewrite <- HP. erewrite (contents_cong (Slice 0 n)); [reflexivity|]. intros x Hx. apply HV; [cbn in Hx; unfold cellsOf in Hx; cbn in Hx; lia|apply Hw].
Qed.

(** ** What is in the collection in between *)

Lemma typed_keeps pl tn opt e s m0 : platOk pl -> tuningOk pl tn -> typedSlice pl e m0 s ->
  forall M k st, reach (typedCall pl tn opt e s m0) M k st ->
  exists v hole, Permutation (contents v s) (contents m0 s) /\
    (forall x, cellsOf s x -> (forall t c, hole t = Some x -> nth_error (main st :: thr st) t = Some c -> quiet c) -> mem (sh st) x = v x) /\
    (forall x, cellsOf s x -> In (mem (sh st) x) (contents m0 s)).
Proof.
  intros Hpl Htn Hty M k st HR. apply reach_traced in HR. destruct HR as (tr & _ & mg0 & Hmg & Ht).
  apply (keeps_most (procs pl tn e) M s m0 (start (sortProg pl tn opt e s) m0 mg0)) with (c := sortProg pl tn opt e s) (mg0 := mg0) (tr := tr).
  - intros tr1 s1 H1. apply (any_norace pl tn opt e s m0 Hpl Htn Hty M tr1 s1 []); [exists mg0; auto|constructor].
  - intros tr1 s1 x w H1. apply texec_exec in H1.
    apply (any_call pl tn opt e s m0 Hpl Htn Hty M (length tr1) s1). exists mg0. auto.
  - intro m. apply hc_sortProg.
  - reflexivity.
  - exact Ht.
Qed.

Lemma lsw_keeps_most pl tn T (lt : T -> T -> bool) cap n m0 M k st : platOk pl -> tuningOk pl tn ->
  irreflexive lt -> 0 <= n <= cap -> 11 * n + 18 < 10 * intSize pl -> reach (lswCall pl tn lt cap n m0) M k st ->
  exists v hole, Permutation (contents v (Slice 0 n)) (contents m0 (Slice 0 n)) /\
    (forall x, cellsOf (Slice 0 n) x -> (forall t c, hole t = Some x -> nth_error (main st :: thr st) t = Some c -> quiet c) -> mem (sh st) x = v x) /\
    (forall x, cellsOf (Slice 0 n) x -> In (mem (sh st) x) (contents m0 (Slice 0 n))).
Proof.
  intros Hpl Htn Hlt Hn Hb HR. apply reach_traced in HR. destruct HR as (tr & _ & mg0 & Hmg & Ht).
  set (C0 := lswCallBy pl tn lt (fun _ _ => false) cap n m0).
  assert (HC : sortCall pl tn C0) by apply (call_by pl tn T lt _ cap n m0 (consistent_none lt Hlt) Hn Hb).
  apply (keeps_most (lswBody (Wd := pword pl) lt cap tn (mI pl)) M (Slice 0 n) m0 (start (cProg C0) m0 mg0)) with (c := cProg C0) (mg0 := mg0) (tr := tr).
  - intros tr1 s1 H1. apply (traced_norace pl tn T C0 M tr1 s1 [] Hpl Htn HC); [exists mg0; auto|constructor].
  - intros tr1 s1 x w H1. apply texec_exec in H1.
    apply (g_in_bounds pl tn Hpl Htn C0 HC M (length tr1) s1). exists mg0. auto.
  - intro m. apply hc_lswSort.
  - reflexivity.
  - exact Ht.
Qed.

(** ** The result is determined by the input *)

Lemma typed_same pl pl' tn tn' e opt s m0 M k st M' k' st' : platOk pl -> platOk pl' ->
  tuningOk pl tn -> tuningOk pl' tn' -> typedSlice pl e m0 s -> typedSlice pl' e m0 s -> sortable e opt (contents m0 s) ->
  reach (typedCall pl tn opt e s m0) M k st -> returned st tt ->
  reach (typedCall pl' tn' opt e s m0) M' k' st' -> returned st' tt ->
  Forall2 (same e) (contents (mem (sh st)) s) (contents (mem (sh st')) s).
Proof.
  intros Hpl Hpl' Htn Htn' Hty Hty' Hso R1 E1 R2 E2.
  destruct (g_goal pl tn Hpl Htn _ (call_typed pl tn e opt s m0 Hty Hso) M k st R1 tt E1) as [[P1 O1] _].
  destruct (g_goal pl' tn' Hpl' Htn' _ (call_typed pl' tn' e opt s m0 Hty' Hso) M' k' st' R2 tt E2) as [[P2 O2] _].
  eapply (inOrder_unique pl); [apply Hty|exact Hso|exact P1|exact P2|exact O1|exact O2].
Qed.

Lemma lsw_same pl pl' tn tn' T (lt : T -> T -> bool) cap n m0 M k st M' k' st' : platOk pl -> platOk pl' ->
  tuningOk pl tn -> tuningOk pl' tn' ->
  weakOrder lt -> 0 <= n <= cap -> 11 * n + 18 < 10 * intSize pl -> 11 * n + 18 < 10 * intSize pl' ->
  reach (lswCall pl tn lt cap n m0) M k st -> returned st tt ->
  reach (lswCall pl' tn' lt cap n m0) M' k' st' -> returned st' tt ->
  Forall2 (sameBy lt) (contents (mem (sh st)) (Slice 0 n)) (contents (mem (sh st')) (Slice 0 n)).
Proof.
  intros Hpl Hpl' Htn Htn' Hlt Hn Hb Hb' R1 E1 R2 E2.
  destruct (sorted_lsw pl tn T lt cap n m0 M k st Hpl Htn Hlt Hn Hb R1 E1) as [P1 O1].
  destruct (sorted_lsw pl' tn' T lt cap n m0 M' k' st' Hpl' Htn' Hlt Hn Hb' R2 E2) as [P2 O2].
  apply noSmallerAfter_unique; auto. rewrite P1, P2. reflexivity.
Qed.

(** ** One splitting step, on the machine *)

Lemma typed_split pl tn e s m0 mg0 M k st r : platOk pl -> typedSlice pl e m0 s ->
  Forall (fun x => ~ nan e x) (contents m0 s) ->
  (9 <= len s /\ exec (procs pl tn e) M (cellsOf s) k (start (splitShort pl e s) m0 mg0) st \/
   16 <= len s /\ exec (procs pl tn e) M (cellsOf s) k (start (splitLong pl e s) m0 mg0) st) ->
  returned st r -> properSplit e s m0 (mem (sh st)) r.
Proof.
  intros Hpl Hty HN H Hr.
  assert (G : exists v, properSplit e s m0 v r /\ forall i, cellsOf s i -> mem (sh st) i = v i).
  { destruct H as [[Hl He]|[Hl He]].
    - destruct (seq_return _ _ _ M _ _ _ _ _ mg0 (swp_splitShort pl Hpl tn e s m0 O Hty HN Hl) k st r He Hr) as (n & v & A & B & _). eauto.
    - destruct (seq_return _ _ _ M _ _ _ _ _ mg0 (swp_splitLong pl Hpl tn e s m0 O Hty HN Hl) k st r He Hr) as (n & v & A & B & _). eauto. }
  destruct G as (v & (Hk & HP & HO) & Hv). split; [exact Hk|].
  split; [rewrite (contents_map v (mem (sh st)) s Hv); exact HP|].
  intros i j Hi Hj. rewrite !Hv by (unfold cellsOf; lia). apply HO; assumption.
Qed.

Lemma lsw_split pl tn T (lt lq : T -> T -> bool) cap lo hi m0 mg0 M k st l : platOk pl -> consistent lt lq ->
  0 <= lo -> hi < cap -> 11 * hi + 29 < 10 * intSize pl -> let s := Slice lo (hi - lo + 1) in
  (6 <= len s /\ exec (lswBody lt cap tn (mI pl)) M (cellsOf s) k (start (lswSplitShort lt cap lo hi) m0 mg0) st \/
   18 <= len s /\ exec (lswBody lt cap tn (mI pl)) M (cellsOf s) k (start (lswSplitLong lt cap (mI pl) lo hi) m0 mg0) st) ->
  returned st l -> properSplitBy lq s m0 (mem (sh st)) (l - lo).
Proof.
  intros Hpl Hlt H0 Hcap Hb0 s H Hr.
  assert (Hb : 11 * hi + 29 < 20 * @wq (pword pl)) by (rewrite (intSize_eq pl) in Hb0; lia).
  assert (G : exists v, properSplitBy lq s m0 v (l - lo) /\ forall i, cellsOf s i -> mem (sh st) i = v i).
  { destruct H as [[Hl He]|[Hl He]].
    - destruct (seq_return _ _ _ M _ _ _ _ _ mg0 (swp_lswSplitShort lt lq Hlt cap tn (mI pl) lo hi m0 O H0 Hl Hcap Hb) k st l He Hr) as (n & v & A & B & _). eauto.
    - destruct (seq_return _ _ _ M _ _ _ _ _ mg0 (swp_lswSplitLong lt lq Hlt cap tn (mI pl) lo hi m0 O (meanEven_of pl Hpl) H0 Hl Hcap Hb) k st l He Hr) as (n & v & A & B & _). eauto. }
  destruct G as (v & (Hk & HP & HO) & Hv). split; [exact Hk|].
  split; [rewrite (contents_map v (mem (sh st)) s Hv); exact HP|].
  intros i j Hi Hj. rewrite !Hv by (unfold cellsOf; lia). apply HO; assumption.
Qed.

(** ** Search *)

Lemma mean_index pl : platOk pl -> forall x y, 0 <= x -> x < y -> y < 2 * @wq (pword pl) -> x <= mI pl x y < y.
Proof.
  intros (_ & _ & _ & _ & _ & B & C & _) x y H0 H1 H2. rewrite <- (intSize_eq pl) in H2. assert (D := C x y H0 H1 H2).
  destruct (B x y ltac:(lia) ltac:(lia)). lia.
Qed.

Lemma halving_wq pl : halving pl -> forall x y, 0 <= x -> x < y -> y < 2 * @wq (pword pl) ->
  x + y - 1 <= 2 * mI pl x y <= x + y.
Proof. intros H x y H0 H1 H2. apply H; [lia|lia|]. rewrite (intSize_eq pl). exact H2. Qed.

Lemma search_any pl P (body : P -> cmd P bool unit) M (Rg : Z -> Prop) n f0 mg0 k qs s : platOk pl ->
  n < intSize pl -> asks body M Rg k qs (start (search (mI pl) n) f0 mg0) s ->
  Forall (fun i => 0 <= i < n) qs /\ Z.of_nat k <= 2 * Z.of_nat (length qs) + 1 /\
  Z.of_nat (length qs) <= Z.max 0 n /\ thr s = [] /\ ~ panicked s /\
  (halving pl -> Z.of_nat (length qs) <= if n <=? 0 then 0 else Z.log2 n + 1) /\
  ((exists r, returned s r) \/ exists s', pstep body s s') /\
  forall r, returned s r -> 0 <= r <= Z.max 0 n /\
    (Rg (r - 1) -> 0 < r -> f0 (r - 1) = false) /\ (Rg r -> r < n -> f0 r = true).
Proof.
  intros Hpl Hn H. rewrite (intSize_eq pl) in Hn.
  destruct (search_safe body M Rg (mI pl) n (mean_index pl Hpl) Hn (halving pl) (halving_wq pl) f0 mg0 k qs s H)
    as (A & B & C & D & E & F & G).
  do 7 (split; [assumption|]). intros r Hr.
  exact (search_answer body M Rg (mI pl) n (mean_index pl Hpl) Hn (halving pl) (halving_wq pl) f0 mg0 k qs s r H Hr).
Qed.

Lemma search_lowest pl P (body : P -> cmd P bool unit) M n fn mg0 k s r : platOk pl -> 0 <= n < intSize pl ->
  monotone n fn -> exec body M (cellsOf (Slice 0 n)) k (start (search (mI pl) n) fn mg0) s -> returned s r ->
  0 <= r <= n /\ (forall i, 0 <= i < r -> fn i = false) /\ (forall i, r <= i < n -> fn i = true).
Proof.
  intros Hpl Hn Hm He Hr. apply asks_exec in He. destruct He as [qs He].
  destruct (search_any pl P body M _ n fn mg0 k qs s Hpl ltac:(lia) He) as (_ & _ & _ & _ & _ & _ & _ & HA).
  destruct (HA r Hr) as (Hr0 & Hlo & Hhi). unfold cellsOf in Hlo, Hhi. cbn [off len] in Hlo, Hhi.
  assert (U : forall j i, 0 <= i -> i + Z.of_nat j < n -> fn i = true -> fn (i + Z.of_nat j) = true).
  { induction j as [|j IH]; intros i Hi Hj Hf; [rewrite Z.add_0_r; exact Hf|].
    replace (i + Z.of_nat (S j)) with (i + Z.of_nat j + 1) by lia. apply Hm; [lia|lia|]. apply IH; [lia|lia|exact Hf]. }
  split; [lia|]. split.
  - intros i Hi. destruct (fn i) eqn:E; [|reflexivity].
    assert (F := U (Z.to_nat (r - 1 - i)) i ltac:(lia) ltac:(lia) E).
    replace (i + Z.of_nat (Z.to_nat (r - 1 - i))) with (r - 1) in F by lia. rewrite Hlo in F by lia. discriminate.
  - intros i Hi. assert (F := U (Z.to_nat (i - r)) r ltac:(lia) ltac:(lia) (Hhi ltac:(lia) ltac:(lia))).
    replace (r + Z.of_nat (Z.to_nat (i - r))) with i in F by lia. exact F.
Qed.

(** ** After the return *)

Lemma done_calls pl tn T (C : call T) M k s : platOk pl -> tuningOk pl tn -> sortCall pl tn C ->
  reach C M k s -> returned s tt -> forall j s', exec (cProcs C) M (cCells C) j s s' ->
  returned s' tt /\ (forall i, cCells C i -> mem (sh s') i = mem (sh s) i) /\
  (forall x w, ~ In (Some (x, w)) (accesses s')) /\ forall c, In c (thr s') -> exiting c.
Proof.
  intros Hpl Htn HC HR Hret j s' He.
  destruct (g_after pl tn Hpl Htn C HC M k s HR tt Hret j s' He) as (A & B & D).
  split; [exact A|]. split; [exact D|]. split; [|exact B].
  intros x w [E|E].
  - unfold access in E. rewrite A in E. discriminate.
  - apply in_map_iff in E. destruct E as (c & E & Hc). specialize (B c Hc). unfold access in E.
    destruct (exiting_view c B) as [[a Ha]|[c' Hc']]; [rewrite Ha in E|rewrite Hc' in E]; discriminate.
Qed.

(** ** The counter *)

Lemma counter_calls pl tn T (C : call T) M k s : platOk pl -> tuningOk pl tn -> sortCall pl tn C ->
  reach C M k s ->
  (forall d, counts (main s) d \/ (exists c, In c (thr s) /\ counts c d) ->
     (d = 1 /\ 0 <= ngor (sh s) /\ ngor (sh s) + 1 < two64) \/
     (d = two64 - 1 /\ 0 < ngor (sh s) /\ ngor (sh s) < two64)) /\
  (chans (sh s) = 1 -> ngor (sh s) = 0 -> cGoal C (mem (sh s)) /\ forall i, ~ busy s i).
Proof.
  intros Hpl Htn HC HR. split.
  - intros d. apply (g_counter pl tn Hpl Htn C HC M k s HR).
  - intros H1 H2. destruct (g_zero pl tn Hpl Htn C HC M k s HR H1 H2) as (A & B & D). split; [exact A|].
    intros [|i]; cbn [busy]; [auto|]. intros (c & Hc & Hq). apply Hq, D. eapply nth_error_In; eauto.
Qed.

(** ** Forms used by the property theorems *)

Lemma sorted_integers pl tn opt e s m0 M k st : platOk pl -> tuningOk pl tn ->
  In e [TI4; TI8; TU4; TU8] -> typedSlice pl e m0 s ->
  reach (typedCall pl tn opt e s m0) M k st -> returned st tt ->
  Permutation (contents (mem (sh st)) s) (contents m0 s) /\
  StronglySorted (le e) (contents (mem (sh st)) s).
Proof.
  intros Hpl Htn Hin. apply sorted_plain; auto. destruct Hin as [<-|[<-|[<-|[<-|[]]]]]; reflexivity.
Qed.

Lemma lsw_indices pl tn T (lt : T -> T -> bool) n m0 M k st : platOk pl -> tuningOk pl tn ->
  irreflexive lt -> 0 <= n -> 11 * n + 18 < 10 * intSize pl -> reach (lswCall pl tn lt n n m0) M k st -> ~ panicked st.
Proof.
  intros Hpl Htn Hlt Hn Hb HR. apply (g_no_panic pl tn Hpl Htn _ (call_by pl tn T lt _ n n m0 (consistent_none lt Hlt) ltac:(lia) ltac:(lia)) M k st HR).
Qed.

Lemma check_slice pl tn opt e s m0 mg0 M k st r : platOk pl ->
  In e [TI4; TI8; TU4; TU8; TS; TB] -> typedSlice pl e m0 s ->
  exec (procs pl tn e) M (cellsOf s) k (start (checkProg pl opt e s) m0 mg0) st -> returned st r ->
  checkSpec e s m0 r.
Proof.
  intros Hpl Hin Hty He Hr. assert (H := check_return pl tn opt e s m0 mg0 M k st r Hpl Hty He Hr).
  destruct Hin as [<-|[<-|[<-|[<-|[<-|[<-|[]]]]]]]; exact H.
Qed.

Lemma check_floats pl tn opt e s m0 mg0 M k st r : platOk pl ->
  In e [TF4; TF8] -> typedSlice pl e m0 s ->
  exec (procs pl tn e) M (cellsOf s) k (start (checkProg pl opt e s) m0 mg0) st -> returned st r ->
  checkSpecF e opt s m0 r.
Proof.
  intros Hpl Hin Hty He Hr. assert (H := check_return pl tn opt e s m0 mg0 M k st r Hpl Hty He Hr).
  destruct Hin as [<-|[<-|[]]]; exact H.
Qed.

Lemma check_len pl tn opt e s m0 mg0 M k st r : platOk pl ->
  In e [TLenS; TLenB] -> typedSlice pl e m0 s ->
  exec (procs pl tn e) M (cellsOf s) k (start (checkProg pl opt e s) m0 mg0) st -> returned st r ->
  checkSpec e s m0 r.
Proof.
  intros Hpl Hin Hty He Hr. assert (H := check_return pl tn opt e s m0 mg0 M k st r Hpl Hty He Hr).
  destruct Hin as [<-|[<-|[]]]; exact H.
Qed.

Lemma every_tuning pl tn : tuningOk pl tn -> forall T (C : call T) M k s, platOk pl -> sortCall pl tn C ->
  reach C M k s ->
  ~ panicked s /\ ~ race s /\ Z.of_nat k <= 100 * cLen C * cLen C + 6 * cLen C + 20 /\
  ((exists r, returned s r) \/ exists s', pstep (cProcs C) s s') /\
  (returned s tt -> cGoal C (mem (sh s))).
Proof.
  intros Htn T C M k s Hpl HC HR.
  split; [apply (g_no_panic pl tn Hpl Htn C HC M k s HR)|].
  split; [apply (g_no_race pl tn Hpl Htn C HC M k s HR)|].
  split; [apply (g_steps pl tn Hpl Htn C HC M k s HR)|].
  split; [apply (g_progress pl tn Hpl Htn C HC M k s HR)|].
  intro H. apply (g_goal pl tn Hpl Htn C HC M k s HR tt H).
Qed.

(** ** IsSorted and samples, for a platform *)

Lemma lsw_check_return pl T (lt : T -> T -> bool) cap body n m0 mg0 M k st r :
  - intSize pl < n < intSize pl -> n <= Z.max 0 cap ->
  exec body M (cellsOf (Slice 0 n)) k (start (lswIsSorted (Wd := pword pl) lt cap n) m0 mg0) st -> returned st r ->
  checkSpecBy lt n m0 r.
Proof. intros Hn. rewrite (intSize_eq pl) in Hn. apply lswCheck_return. exact Hn. Qed.

Lemma lsw_check_reach pl T (lt : T -> T -> bool) cap body n m0 mg0 M k st :
  - intSize pl < n < intSize pl -> n <= Z.max 0 cap ->
  exec body M (cellsOf (Slice 0 n)) k (start (lswIsSorted (Wd := pword pl) lt cap n) m0 mg0) st ->
  thr st = [] /\ chans (sh st) = 0 /\ Z.of_nat k <= 4 * Z.max 0 n + 4 /\ ~ panicked st /\
  (forall x w, In (Some (x, w)) (accesses st) -> w = false /\ 0 <= x < n) /\
  ((exists r, returned st r) \/ exists st', pstep body st st').
Proof. intros Hn. rewrite (intSize_eq pl) in Hn. apply lswCheck_reach. exact Hn. Qed.

Lemma samples_optimal pl slen n first step last : 2 <= n -> 2 * n <= slen -> slen < 2 * intSize pl ->
  minMaxSample (Wd := pword pl) slen n = (first, step, last) ->
  valid_samples slen n first step /\ last = first + (n - 1) * step /\
  forall f' st' D, valid_samples slen n f' st' -> within slen n f' st' D -> within slen n first step D.
Proof. intros H1 H2 H3. rewrite (intSize_eq pl) in H3. apply minMaxSample_optimal; lia. Qed.

Lemma four_agrees pl slen : platOk pl -> 8 <= slen < 2 ^ 32 ->
  minMaxFour slen = (fst (fst (minMaxSample (Wd := pword pl) slen 4)), snd (fst (minMaxSample (Wd := pword pl) slen 4))).
Proof. intros Hpl H. assert (HI := intSize_wq pl (proj1 Hpl)). apply minMaxFour_agrees; lia. Qed.
