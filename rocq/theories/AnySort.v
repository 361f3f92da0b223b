(** * The typed sorters with comparisons that obey no laws

    Whatever < and <= answer (floats with NaNs under NaNignore), the sorters of Typed.v
    may fail to end, but they stay inside their slices, their goroutines stay out of each
    other's way, and if they end they have only rearranged the elements.  The logic is the
    step-indexed one of [SafeLogic.v]. *)

From Coq Require Import List ZArith Lia Bool Permutation.
From Verif Require Import Lang SeqLogic ConcLogic SafeLogic Base Scalar Typed SeqOps ScalarFacts
  TypedPart TypedPivot TypedShort ConcSort TypedLong TypedSort AnySeq.
Import ListNotations.
Open Scope Z_scope.

Local Arguments Z.mul : simpl never.
Local Arguments Z.add : simpl never.
Local Arguments Z.sub : simpl never.
Local Arguments Z.pow : simpl never.

(** ** Derived rules of the step-indexed logic *)
Section Rules.
Context {Gr : grain}.
Context {Wd : word}.
Context {P T : Type}.
Variable body : P -> cmd P T unit.
Variable Dm : nat.
Notation sp := (sp body Dm).
Notation swp := (swp body).

Lemma sp_bseq m D1 D {A B} n (R1 W1 : cells) (Post : B -> (Z -> T) -> Prop)
  (Q : A -> gst T -> Prop) (c : cmd P T B) k g :
  live g -> swp D1 n R1 W1 (fun a _ v' => Post a v') c (val g) -> (D1 <= D)%nat ->
  (forall i, R1 i -> rd g i) -> (forall i, W1 i -> dom g i) ->
  (forall a v' m', (m' <= m)%nat -> Post a v' -> (forall i, ~ W1 i -> v' i = val g i) ->
     sp m' D Q (k a) (setval g v')) ->
  sp m D Q (Bind c k) g.
Proof.
  intros Hl H HD HR HW HQ.
  eapply sp_bind with (Q1 := fun a g' => exists v', g' = setval g v' /\ Post a v' /\ forall i, ~ W1 i -> v' i = val g i).
  - eapply sp_seq; [exact Hl|exact H|exact HD|exact HR|exact HW|]. cbv beta. intros a _ v' Hp Hf. eauto.
  - intros b g' m' Hm (v' & -> & Hp & Hf). apply HQ; assumption.
Qed.

Lemma sp_loop_step m D {A S} (Q : A -> gst T -> Prop) (s : S) (bd : S -> cmd P T (S + A)) g :
  (forall m', (m' < m)%nat ->
     sp m' D (fun r g' => match r with
                          | inl s' => forall m'', (m'' < m)%nat -> sp m'' D Q (Loop s' bd) g'
                          | inr a => Q a g'
                          end) (bd s) g) ->
  sp m D Q (Loop s bd) g.
Proof.
  intro H. destruct m as [|m]; [exact I|]. split; [simpl; lia|]. simpl.
  eapply sp_bind; [apply H; lia|]. intros [s'|a] g' m' Hm Hq; [apply Hq; lia|apply sp_ret; exact Hq].
Qed.

Lemma sp_loadmax m D {A} (Q : A -> gst T -> Prop) k g :
  live g -> (forall x m', (m' < m)%nat -> 0 <= x -> sp m' D Q (k x) (setseen g x)) ->
  sp m D Q (LoadMax k) g.
Proof. intros Hl H. destruct m as [|m]; [exact I|]. split; [simpl; lia|]. simpl. auto. Qed.

Lemma sp_loadgor m D {A} (Q : A -> gst T -> Prop) k g a :
  md g = MAct a -> a_credit a = false -> a_join a = None ->
  (forall z m', (m' < m)%nat -> sp m' D Q (k z) (setmd g (MAct (settok a (z <? seen g))))) ->
  sp m D Q (LoadGor k) g.
Proof.
  intros H1 H2 H3 H. destruct m as [|m]; [exact I|]. split; [simpl; lia|]. simpl. exists a. auto 6.
Qed.

Lemma sp_makesv m D {A} (Q : A -> gst T -> Prop) k g Pr :
  md g = MInit -> 1 < seen g -> many (dom g) ->
  (forall m', (m' < m)%nat -> sp m' D Q k (setmd g (MAct (Act (Some Pr) Pr false true None)))) ->
  sp m D Q (MakeSv k) g.
Proof.
  intros H1 H2 H3 H. destruct m as [|m]; [exact I|]. split; [simpl; lia|]. simpl. exists Pr. auto 6.
Qed.

Lemma sp_addinc m D {A} (Q : A -> gst T -> Prop) k g a :
  md g = MAct a -> a_credit a = false -> a_tok a = true -> a_join a = None ->
  twice (dom g) ->
  (forall z m', (m' < m)%nat -> sp m' D Q (k z) (setmd g (MAct (setcredit a)))) ->
  sp m D Q (AddGor 1 k) g.
Proof.
  intros H1 H2 H3 H4 H5 H. destruct m as [|m]; [exact I|]. split; [simpl; lia|]. simpl. left.
  split; [reflexivity|]. exists a. auto 8.
Qed.

Lemma sp_adddec m D {A} (Q : A -> gst T -> Prop) k g a :
  md g = MAct a -> a_credit a = false -> a_join a = None ->
  (forall w, agrees g w -> a_P a w) ->
  (forall z m', (m' < m)%nat -> 0 <= z -> sp m' D Q (k z) (noown g (signed_off a z))) ->
  sp m D Q (AddGor (2 ^ 64 - 1) k) g.
Proof.
  intros H1 H2 H3 H4 H. destruct m as [|m]; [exact I|]. split; [simpl; lia|]. simpl. right.
  split; [reflexivity|]. exists a. auto 8.
Qed.

Lemma sp_forkcredit m D {A} (Q : A -> gst T -> Prop) p k g a (d1 : cells) (P1 P2 : promise T) :
  md g = MAct a -> a_credit a = true -> a_join a = None ->
  (forall i, d1 i -> dom g i) -> many d1 -> many (minus (dom g) d1) ->
  (forall w, P1 w -> P2 w -> a_P a w) ->
  (forall m', (m' < m)%nat ->
     sp m' Dm QTS (body p) (Gst d1 d1 (val g) (MAct (Act None P1 false false None)) 0)) ->
  (forall m', (m' < m)%nat ->
     sp m' D Q k (Gst (minus (dom g) d1) (minus (rd g) d1) (val g) (MAct (forked a P2)) (seen g))) ->
  sp m D Q (Fork p k) g.
Proof.
  intros H1 H2 H3 H4 H5 H6 H7 H8 H9. destruct m as [|m]; [exact I|]. split; [simpl; lia|]. simpl. left.
  exists a, d1, P1, P2. repeat (split; [assumption|]). split; [apply H8|apply H9]; lia.
Qed.

Lemma sp_forkpart m D {A} (Q : A -> gst T -> Prop) p k g a (dj d2 r2 : cells) post :
  md g = MAct a -> a_main a <> None -> a_credit a = false -> a_tok a = true -> a_join a = None ->
  (forall i, dj i -> dom g i) -> (forall i, d2 i -> r2 i) -> (forall i, r2 i -> dj i) ->
  twice (dom g) -> (forall i, dj i \/ ~ dj i) ->
  (forall m', (m' < m)%nat -> sp m' Dm QTS (body p) (Gst d2 r2 (val g) (MPart (Join dj post)) 0)) ->
  (forall m', (m' < m)%nat -> sp m' D Q k (Gst (minus (dom g) dj) (minus (rd g) d2) (val g)
                   (MAct (setjoin a (Some (Join dj post)))) (seen g))) ->
  sp m D Q (Fork p k) g.
Proof.
  intros H1 H2 H3 H4 H5 H6 H7 H7' H8 H8' H9 H10. destruct m as [|m]; [exact I|]. split; [simpl; lia|]. simpl. right.
  exists a, dj, d2, r2, post. repeat (split; [assumption|]). split; [apply H9|apply H10]; lia.
Qed.

Lemma sp_sendpart m D {A} (Q : A -> gst T -> Prop) v k g j :
  md g = MPart j -> (forall w, agrees g w -> j_post j v w) ->
  (forall m', (m' < m)%nat -> sp m' D Q k (noown g MDone)) -> sp m D Q (Send v k) g.
Proof.
  intros H1 H2 H. destruct m as [|m]; [exact I|]. split; [simpl; lia|]. simpl. left. exists j. auto.
Qed.

Lemma sp_sendlast m D {A} (Q : A -> gst T -> Prop) v k g :
  md g = MLast -> (forall m', (m' < m)%nat -> sp m' D Q k (noown g MDone)) -> sp m D Q (Send v k) g.
Proof. intros H1 H. destruct m as [|m]; [exact I|]. split; [simpl; lia|]. simpl. right. auto. Qed.

Lemma sp_recvjoin m D {A} (Q : A -> gst T -> Prop) k g a j :
  md g = MAct a -> a_join a = Some j ->
  (forall v w m', (m' < m)%nat -> agrees g w -> j_post j v w ->
     sp m' D Q (k v) (Gst (union (dom g) (j_D j)) (union (rd g) (j_D j)) w
                          (MAct (setjoin a None)) (seen g))) ->
  sp m D Q (Recv k) g.
Proof.
  intros H1 H2 H. destruct m as [|m]; [exact I|]. split; [simpl; lia|]. simpl. left. exists a, j. auto 6.
Qed.

Lemma sp_recvwait m D {A} (Q : A -> gst T -> Prop) k g Pf :
  md g = MWait Pf -> (forall v m', (m' < m)%nat -> sp m' D Q (k v) (setmd g (MFinal Pf))) ->
  sp m D Q (Recv k) g.
Proof.
  intros H1 H. destruct m as [|m]; [exact I|]. split; [simpl; lia|]. simpl. right. exists Pf. auto.
Qed.

End Rules.

(** ** Rearranging a slice *)

Definition permS {T} (s : slice) (v v' : Z -> T) : Prop := permR (off s) (off s + len s) v v'.

Definition within (s t : slice) : Prop := off t <= off s /\ off s + len s <= off t + len t.

Lemma within_reg s t i : within s t -> reg s i -> reg t i.
Proof. unfold within, reg. lia. Qed.

Lemma within_refl s : within s s.
Proof. unfold within. lia. Qed.

Lemma within_trans s t u : within s t -> within t u -> within s u.
Proof. unfold within. lia. Qed.

Lemma isSplit_any s k aq ar : 0 <= k <= len s -> isSplit s k aq ar ->
  within aq s /\ within ar s /\ (forall i, reg aq i -> ~ reg ar i) /\
  0 <= len aq /\ len aq + len ar = len s /\ len aq <= len ar /\ (1 <= len aq -> off ar <> off aq).
Proof. intros Hk [H1 H2]. unfold within, reg. repeat split; intros; lia. Qed.

Lemma permS_local {T} s (v u u' : Z -> T) :
  (forall i, reg s i -> u' i = u i) -> permS s v u -> permS s v u'.
Proof.
  intros E H. eapply permR_trans; [exact H|]. apply permR_ext. intros i Hi. symmetry. apply E. exact Hi.
Qed.

Lemma permS_init {T} s (v w u : Z -> T) :
  (forall i, reg s i -> w i = v i) -> permS s v u -> permS s w u.
Proof.
  intros E H. eapply permR_trans; [|exact H]. apply permR_ext. intros i Hi. apply E. exact Hi.
Qed.

Lemma permS_wide {T} s t (v w : Z -> T) :
  0 <= len s -> within s t -> permS s v w -> (forall i, ~ reg s i -> w i = v i) -> permS t v w.
Proof.
  intros H0 [H1 H2] H E. unfold permS in *.
  apply (permR_widen (off s) (off s + len s)); try lia; [exact H|].
  intros i Hi. symmetry. apply E. unfold reg. lia.
Qed.

Lemma permS_join {T} s k aq ar (v0 v1 v2 : Z -> T) :
  0 <= k <= len s -> permS s v0 v1 -> isSplit s k aq ar ->
  permS aq v1 v2 -> permS ar v1 v2 -> permS s v0 v2.
Proof.
  intros Hk Hp [Hs _] S1 S2. set (o := off s) in *.
  assert (G : permS (Slice o k) v1 v2 /\ permS (Slice (o + k) (len s - k)) v1 v2).
  { destruct aq as [oq lq], ar as [oa la]; simpl in *. fold o in Hs.
    destruct Hs as [(-> & -> & -> & ->)|(-> & -> & -> & ->)]; auto. }
  destruct G as [P1 P2]. unfold permS in P1, P2. simpl in *.
  replace (o + k + (len s - k)) with (o + len s) in * by lia.
  eapply permR_trans; [exact Hp|]. fold o. apply (permR_app o (o + k)); [lia|exact P1|exact P2].
Qed.

(** The goroutine keeps its cells and has rearranged those of [s]. *)
Definition stays {T} (s : slice) (g g' : gst T) : Prop :=
  exists v', g' = setval g v' /\ permS s (val g) v' /\ forall i, ~ reg s i -> v' i = val g i.

Lemma stays_refl {T} s (g : gst T) : stays s g g.
Proof. exists (val g). split; [destruct g; reflexivity|]. split; [apply permR_refl|auto]. Qed.

Lemma stays_step {T} s t (g g1 g2 : gst T) :
  0 <= len s -> within s t -> stays t g g1 -> stays s g1 g2 -> stays t g g2.
Proof.
  intros H0 Hw (v1 & -> & P1 & F1) (v2 & -> & P2 & F2). cbn [setval val] in *.
  exists v2. split; [reflexivity|]. split.
  - eapply permR_trans; [exact P1|]. eapply (permS_wide s t); eassumption.
  - intros i Hi. rewrite F2; [apply F1; exact Hi|]. intro H. apply Hi. eapply within_reg; eassumption.
Qed.

Lemma stays_live {T} s (g g' : gst T) : stays s g g' -> live g -> live g'.
Proof. intros (v' & -> & _) H. exact H. Qed.

Section Any.
Context {Wd : word}.
Context {T K : Type}.
Variable kd : kind T K.
Variable tn : tuning.
Variable meanI : Z -> Z -> Z.
Hypothesis HmeanI : meanOk meanI.

Notation maxIns := (maxIns kd tn).
Notation maxRec := (maxRec kd tn).
Hypothesis HIns : 9 <= maxIns.
Hypothesis HRec : 2 * maxIns < maxRec.

Notation body := (body kd tn).
Notation G := (typedGrain kd tn).
Notation swp := (swp body).
Variable Dm : nat.
Notation sp := (sp (Gr := G) body Dm).

Definition owns (s : slice) (g : gst T) : Prop :=
  (forall i, reg s i -> dom g i) /\ (forall i, reg s i -> rd g i).

Lemma owns_sub s t g : within s t -> owns t g -> owns s g.
Proof.
  intros Hw [H1 H2]. split; intros i Hi; [apply H1|apply H2]; eapply within_reg; eassumption.
Qed.

Lemma owns_stays s t g g' : stays t g g' -> owns s g -> owns s g'.
Proof. intros (v' & -> & _) H. exact H. Qed.

Lemma sp_ins m D s g :
  0 <= len s -> live g -> owns s g -> sp m D (fun _ g' => stays s g g') (insertion (ltT kd) s) g.
Proof.
  intros H0 Hl [Hd Hr].
  eapply sp_seq with (D1 := O); [exact Hl|apply (swp_insertion_any body (ltT kd) s (val g) 0 H0)|lia|exact Hr|exact Hd|].
  cbv beta. intros _ _ v' Hp Hf. exists v'. auto.
Qed.

(** X:216-261, func shortX. *)
Lemma sp_short : forall m s g,
  maxIns < len s -> len s < 2 * wq -> live g -> owns s g ->
  sp m (Z.to_nat (Z.log2 (len s))) (fun _ g' => stays s g g') (short kd tn s) g.
Proof.
  intro m. induction m as [m IH] using lt_wf_ind. intros s g Hs Hb Hl Ho. rewrite short_unfold.
  apply (sp_loop body Dm m _ (fun st g' => stays s g g' /\
    match st with
    | inl ar => within ar s /\ maxIns < len ar
    | inr (ar, aq) => within ar s /\ within aq s /\ 0 <= len aq /\ 0 < len ar /\
                      (len aq = 0 -> maxIns < len ar)
    end)).
  2:{ split; [apply stays_refl|]. split; [apply within_refl|exact Hs]. }
  intros [ar|[ar aq]] g1 m1 Hm1 (Hst & Hx); unfold shortBody at 1.
  - destruct Hx as (War & Har).
    assert (Hl1 := stays_live _ _ _ Hst Hl). assert (Ho1 := owns_stays s s g g1 Hst Ho).
    assert (Hoa := owns_sub ar s g1 War Ho1).
    assert (Hb1 : len ar < 2 * wq) by (unfold within in War; lia).
    eapply sp_bseq with (D1 := O);
      [exact Hl1|apply (swp_pivotShort_any kd _ ar (val g1) 0); [lia|exact Hb1]|lia|apply Hoa|intros ? []|].
    cbv beta. intros pv v' m2 Hm2 -> _. replace (setval g1 (val g1)) with g1 by (destruct g1; reflexivity).
    eapply sp_bseq with (D1 := O);
      [exact Hl1|apply (swp_partOne_any kd _ pv ar (val g1) 0); lia|lia|apply Hoa|apply Hoa|].
    cbv beta. intros k v1 m3 Hm3 (Hk & Hp1) Hf1.
    eapply sp_bseq with (n := O) (D1 := O) (R1 := empty) (W1 := empty)
      (Post := fun '(aq, br) v' => isSplit ar k aq br /\ v' = v1);
      [exact Hl1|apply swp_split; [lia|auto]|lia|intros ? []|intros ? []|].
    intros [aq br] v2 m4 Hm4 [Hsp ->] _.
    change (setval (setval g1 v1) v1) with (setval g1 v1).
    destruct (isSplit_any ar k aq br Hk Hsp) as (Wq & Wr & Rdis & Hq0 & Hsum & Hle & Hoff).
    assert (Hst1 : stays s g (setval g1 v1)).
    { eapply (stays_step ar s); [lia|exact War|exact Hst|]. exists v1. auto. }
    assert (Wq' := within_trans _ _ _ Wq War). assert (Wr' := within_trans _ _ _ Wr War).
    destruct (Z.ltb_spec maxIns (len aq)) as [C|C].
    + assert (Lq := log2_half (len aq) (len s) ltac:(lia) ltac:(unfold within in *; lia)).
      assert (Lq0 := Z.log2_nonneg (len aq)).
      eapply sp_bind with (Q1 := fun _ g' => stays s g g').
      * eapply sp_call with (Q1 := fun _ g' => stays aq (setval g1 v1) g'); [lia|exact Hl1| |].
        -- intros m5 Hm5. cbn [Typed.body].
           eapply sp_conseq; [apply (IH m5 ltac:(lia) aq (setval g1 v1)); [lia|unfold within in *; lia|exact Hl1|]|lia|auto].
           eapply owns_sub; [exact Wq'|exact Ho1].
        -- intros g2 m5 Hm5 H2. apply sp_ret. eapply stays_step; [|exact Wq'|exact Hst1|exact H2]. lia.
      * intros _ g2 m5 Hm5 H2. apply sp_ret. split; [exact H2|]. split; [exact Wr'|lia].
    + apply sp_ret. split; [exact Hst1|]. repeat split; try assumption; try apply Wr'; try apply Wq'; lia.
  - destruct Hx as (Wr & Wq & Hq0 & Hr0 & Hx).
    assert (Hl1 := stays_live _ _ _ Hst Hl). assert (Ho1 := owns_stays s s g g1 Hst Ho).
    eapply sp_bind; [apply (sp_ins m1 _ aq g1 Hq0 Hl1); eapply owns_sub; [exact Wq|exact Ho1]|].
    cbv beta. intros _ g2 m2 Hm2 Hst2.
    assert (Hst' := stays_step aq s g g1 g2 Hq0 Wq Hst Hst2).
    destruct (Z.ltb_spec maxIns (len ar)) as [C|C].
    { apply sp_ret. split; [exact Hst'|]. split; [exact Wr|exact C]. }
    destruct (Z.ltb_spec 0 (len ar)); [|lia]. destruct (Z.ltb_spec 0 (len aq)); [|lia]. simpl.
    destruct (off ar =? off aq); apply sp_ret; [exact Hst'|].
    split; [exact Hst'|]. repeat split; try lia; apply Wr.
Qed.

Lemma sp_small m s g :
  0 <= len s -> len s < 2 * wq -> live g -> owns s g ->
  sp m (Z.to_nat (Z.log2 (len s) + 1)) (fun _ g' => stays s g g')
    (if maxIns <? len s then Call (PShort s) (Ret tt) else insertion (ltT kd) s) g.
Proof.
  intros H0 Hb Hl Ho. assert (L0 := Z.log2_nonneg (len s)).
  destruct (Z.ltb_spec maxIns (len s)) as [C|C]; [|apply sp_ins; assumption].
  eapply sp_call with (Q1 := fun _ g' => stays s g g'); [lia|exact Hl| |].
  - intros m' _. cbn [Typed.body]. eapply sp_conseq; [apply sp_short; assumption|lia|auto].
  - intros g' m' _ H. apply sp_ret. exact H.
Qed.

(** One round of longX up to the split. *)
Lemma sp_longRound m D s g {A} (Q : A -> gst T -> Prop) (F : slice * slice -> cmd (proc K) T A) :
  maxRec < len s -> len s < 2 * wq -> live g -> owns s g ->
  (forall k aq ar v1 m', (m' <= m)%nat -> 0 <= k <= len s -> isSplit s k aq ar ->
     permS s (val g) v1 -> (forall i, ~ reg s i -> v1 i = val g i) ->
     sp m' D Q (F (aq, ar)) (setval g v1)) ->
  sp m D Q (Bind (pivot kd s (nsamples kd nsLong)) (fun pv =>
            Bind (partOne kd s pv) (fun k => Bind (split s k) F))) g.
Proof.
  intros Hs Hb Hl [Hd Hr] H.
  eapply sp_bseq with (D1 := O);
    [exact Hl|apply (swp_pivot_any kd _ s nsLong (val g) 0); [right; reflexivity|unfold nsLong; lia|lia]
    |lia|exact Hr|intros ? []|].
  cbv beta. intros pv v' m2 Hm2 -> _. replace (setval g (val g)) with g by (destruct g; reflexivity).
  eapply sp_bseq with (D1 := O);
    [exact Hl|apply (swp_partOne_any kd _ pv s (val g) 0); lia|lia|exact Hr|exact Hd|].
  cbv beta. intros k v1 m3 Hm3 (Hk & Hp1) Hf1.
  eapply sp_bseq with (n := O) (D1 := O) (R1 := empty) (W1 := empty)
    (Post := fun '(aq, br) v' => isSplit s k aq br /\ v' = v1);
    [exact Hl|apply swp_split; [lia|auto]|lia|intros ? []|intros ? []|].
  intros [aq br] v2 m4 Hm4 [Hsp ->] _. sv. apply (H k); [lia|assumption..].
Qed.

(** X:274-317, func longX with sv = nil. *)
Lemma sp_long : forall m s g,
  maxRec < len s -> len s < 2 * wq -> live g -> owns s g ->
  sp m (Z.to_nat (Z.log2 (len s) + 1)) (fun _ g' => stays s g g') (long kd tn s false) g.
Proof.
  intro m. induction m as [m IH] using lt_wf_ind. intros s g Hs Hb Hl Ho. rewrite long_unfold.
  apply (sp_loop body Dm m _ (fun ar g' => stays s g g' /\ within ar s /\ maxRec < len ar)).
  2:{ split; [apply stays_refl|]. split; [apply within_refl|exact Hs]. }
  intros ar g1 m1 Hm1 (Hst & War & Har).
  assert (Hl1 := stays_live _ _ _ Hst Hl). assert (Ho1 := owns_stays s s g g1 Hst Ho).
  unfold longBody at 1.
  apply sp_longRound; [exact Har|unfold within in *; lia|exact Hl1|eapply owns_sub; eassumption|].
  intros k aq br v1 m2 Hm2 Hk Hsp Hp1 Hf1.
  destruct (isSplit_any ar k aq br Hk Hsp) as (Wq & Wr & Rdis & Hq0 & Hsum & Hle & Hoff).
  assert (Hst1 : stays s g (setval g1 v1)).
  { eapply (stays_step ar s); [lia|exact War|exact Hst|]. exists v1. auto. }
  assert (Wq' := within_trans _ _ _ Wq War). assert (Wr' := within_trans _ _ _ Wr War).
  assert (Lq : len aq = 0 \/ Z.log2 (len aq) + 1 <= Z.log2 (len s)).
  { destruct (Z.eq_dec (len aq) 0); [left; assumption|right; apply log2_half; unfold within in *; lia]. }
  assert (Lr : Z.log2 (len br) <= Z.log2 (len s)) by (apply Z.log2_le_mono; unfold within in *; lia).
  assert (Ls := Z.log2_nonneg (len s)). assert (Lq0 := Z.log2_nonneg (len aq)).
  assert (Hbs : len aq < 2 * wq /\ len br < 2 * wq) by (unfold within in *; lia).
  destruct (Z.leb_spec (len aq) maxRec) as [Cc|Cc].
  - eapply sp_bind with (Q1 := fun _ g' => stays s g g').
    + eapply sp_conseq; [apply (sp_small m2 aq (setval g1 v1)); [lia|lia|exact Hl1|eapply owns_sub; [exact Wq'|exact Ho1]]|..].
      * destruct Lq as [E|]; [rewrite E; change (Z.log2 0) with 0; lia|lia].
      * cbv beta. intros _ g2 H2. eapply stays_step; [|exact Wq'|exact Hst1|exact H2]. lia.
    + intros _ g2 m3 Hm3 H2. destruct (Z.ltb_spec maxRec (len br)) as [Cr|Cr].
      * apply sp_ret. split; [exact H2|]. split; [exact Wr'|exact Cr].
      * eapply sp_call with (Q1 := fun _ g' => stays br g2 g'); [lia|eapply stays_live; eassumption| |].
        -- intros m4 _. cbn [Typed.body]. eapply sp_conseq; [apply sp_short; [lia|lia|eapply stays_live; eassumption|]|lia|auto].
           eapply owns_sub; [exact Wr'|eapply owns_stays; eassumption].
        -- intros g3 m4 _ H3. apply sp_ret. eapply stays_step; [|exact Wr'|exact H2|exact H3]. lia.
  - eapply sp_bind with (Q1 := fun b g' => b = true /\ g' = setval g1 v1); [apply sp_ret; auto|].
    intros b g2 m3 Hm3 [-> ->].
    eapply sp_call with (Q1 := fun _ g' => stays aq (setval g1 v1) g'); [lia|exact Hl1| |].
    + intros m4 Hm4. cbn [Typed.body].
      eapply sp_conseq; [apply (IH m4 ltac:(lia) aq (setval g1 v1)); [lia|lia|exact Hl1|eapply owns_sub; [exact Wq'|exact Ho1]]|lia|auto].
    + intros g3 m4 _ H3. apply sp_ret. split; [|split; [exact Wr'|lia]].
      eapply stays_step; [|exact Wq'|exact Hst1|exact H3]. lia.
Qed.

(** longX with a syncVar. *)
Lemma sp_longC : forall m s g a,
  maxRec < len s -> len s < 2 * wq ->
  md g = MAct a -> idle a -> owns s g ->
  (Z.to_nat (Z.log2 (len s) + 2) <= Dm)%nat ->
  sp m (Z.to_nat (Z.log2 (len s) + 1))
    (fun _ g' => delegated (reg s) (permS s (val g)) g a g') (Loop s (longBody kd tn true)) g.
Proof.
  intro m. induction m as [m IH] using lt_wf_ind. intros s g a Hs Hb Hmd Hidle Ho HDm.
  assert (Hlive : live g) by (unfold live; rewrite Hmd; exact I).
  apply sp_loop_step. intros m1 Hm1. unfold longBody at 1.
  apply sp_longRound; [exact Hs|exact Hb|exact Hlive|exact Ho|].
  intros k aq ar v1 m2 Hm2 Hk Hsp Hp1 Hf1.
  destruct (isSplit_any s k aq ar Hk Hsp) as (Wq & Wr & Rdis & Hq0 & Hsum & Hle & Hoff).
  assert (Lq : len aq = 0 \/ Z.log2 (len aq) + 1 <= Z.log2 (len s)).
  { destruct (Z.eq_dec (len aq) 0); [left; assumption|right; apply log2_half; lia]. }
  assert (Lr : Z.log2 (len ar) <= Z.log2 (len s)) by (apply Z.log2_le_mono; lia).
  assert (Ls := Z.log2_nonneg (len s)). assert (Lq0 := Z.log2_nonneg (len aq)).
  assert (Lr0 := Z.log2_nonneg (len ar)).
  assert (Raq : forall i, reg aq i -> reg s i) by (intros i; apply within_reg; exact Wq).
  assert (Rar : forall i, reg ar i -> reg s i) by (intros i; apply within_reg; exact Wr).
  assert (Rdis' : forall i, reg ar i -> ~ reg aq i) by (intros i H1 H2; exact (Rdis i H2 H1)).
  assert (HJ : forall u, permS aq v1 u -> permS ar v1 u -> permS s (val g) u).
  { intros u Hu1 Hu2. eapply permS_join; eassumption. }
  destruct Ho as [Hdom Hrd].
  (* continuing with the longer range after the shorter one *)
  assert (Hgo : forall m3 g1 a1 g2, (m3 < m)%nat -> sameact a a1 -> (forall i, dom g1 i <-> dom g i) -> (forall i, rd g1 i <-> rd g i) ->
    val g1 = v1 -> delegated (reg aq) (permS aq v1) g1 a1 g2 -> maxRec < len ar ->
    sp m3 (Z.to_nat (Z.log2 (len s) + 1))
      (fun _ g' => delegated (reg s) (permS s (val g)) g a g') (Loop ar (longBody kd tn true)) g2).
  { intros m3 g1 a1 g2 Hm3 Hsa Ed Er Ev Hdel Hbig.
    assert (Hdel0 := Hdel).
    destruct Hdel as (O1 & a2 & Em & Ea & Hi & HO & HD & HR & HV & HP).
    assert (E12 : forall i, reg ar i -> val g2 i = v1 i).
    { intros i Hi2. rewrite HV, Ev; [reflexivity|]. auto. }
    eapply sp_conseq; [apply (IH m3 Hm3 ar) with (a := a2); [lia|lia|exact Em|exact Hi| |lia]
                      |lia|].
    { split; intros i Hr; [apply HD; rewrite Ed|apply HR; rewrite Er]; (split; [auto|]); intro Ho;
        apply HO in Ho; exact (Rdis i Ho Hr). }
    cbv beta. intros _ g3 Hdel3.
    eapply (delegated_seq (reg s) (reg aq) (reg ar)) with (S1 := permS aq v1) (S2 := permS ar (val g2));
      [exact Hsa|exact Ed|exact Er|intros i Hi2; rewrite Ev; apply Hf1; exact Hi2
      |exact Raq|exact Rar|exact Rdis|apply permS_local| |exact Hdel0|].
    - intros u Hu1 Hu2. apply HJ; [exact Hu1|]. eapply permS_init; [|exact Hu2].
      intros i Hr. symmetry. apply E12; exact Hr.
    - intros a3 Ha3. rewrite Em in Ha3. injection Ha3 as <-. exact Hdel3. }
  destruct (Z.leb_spec (len aq) maxRec) as [Cc|Cc].
  - eapply sp_bind with (Q1 := fun _ g' => stays aq (setval g v1) g').
    { eapply sp_conseq; [apply (sp_small m2 aq (setval g v1)); [lia|lia|exact Hlive|split; cbn; auto]|..|auto].
      destruct Lq as [E|]; [rewrite E; change (Z.log2 0) with 0; lia|lia]. }
    intros _ g2 m3 Hm3 (v2 & -> & Hsq & Hf2). cbn [setval val] in Hsq, Hf2. sv.
    assert (Hdel : delegated (reg aq) (permS aq v1) (setval g v1) a (setval (setval g v1) v2)).
    { apply delegated_local; [exact Hmd|exact Hidle|exact Hf2|].
      intros u Hu. eapply permS_local; [exact Hu|exact Hsq]. }
    change (setval (setval g v1) v2) with (setval g v2) in Hdel.
    destruct (Z.ltb_spec maxRec (len ar)) as [Cr|Cr].
    + apply sp_ret. intros m4 Hm4. apply (Hgo m4 (setval g v1) a);
        [exact Hm4|split; reflexivity|reflexivity|reflexivity|reflexivity|exact Hdel|exact Cr].
    + assert (E12 : forall i, reg ar i -> v2 i = v1 i) by (intros i Hi; apply Hf2; auto).
      eapply sp_call with (Q1 := fun _ g' => stays ar (setval g v2) g'); [lia|exact Hlive| |].
      * intros m4 _. cbn [Typed.body]. eapply sp_conseq; [apply sp_short; [lia|lia|exact Hlive|split; cbn; auto]|lia|auto].
      * intros g3 m4 Hm4 (v3 & -> & Hsa & Hf3). cbn [setval val] in Hsa, Hf3. apply sp_ret. sv.
        apply delegated_local; [exact Hmd|exact Hidle| |].
        -- intros i Hi. rewrite Hf3, Hf2, Hf1; auto.
        -- intros u Hu. apply HJ.
           ++ eapply permS_local; [|exact Hsq]. intros i Hi. rewrite Hu by auto. apply Hf3; auto.
           ++ eapply permS_local; [intros i Hi; apply Hu; auto|].
              eapply permS_init; [|exact Hsa]. intros i Hi. symmetry. auto.
  - assert (Hoff1 : reg aq (off aq)) by (unfold reg; lia).
    assert (Hoff2 : reg ar (off ar)) by (unfold reg; lia).
    assert (Hlq : Z.log2 (len aq) + 1 <= Z.log2 (len s)) by lia.
    unfold gorFull. eapply sp_bind with (Q1 := fun b g' => exists mg ng, b = (mg <=? ng) /\
      g' = Gst (dom g) (rd g) v1 (MAct (settok a (ng <? mg))) mg).
    { apply sp_loadmax; [exact Hlive|]. intros mg m3 Hm3 Hmg.
      eapply sp_loadgor; [exact Hmd|apply Hidle|apply Hidle|]. intros ng m4 Hm4.
      apply sp_ret. exists mg, ng. split; reflexivity. }
    intros full g2 m3 Hm3 (mg & ng & -> & ->).
    set (a1 := settok a (ng <? mg)).
    assert (Hsa1 : sameact a a1) by (split; reflexivity).
    assert (Hidle1 : idle a1) by exact Hidle.
    destruct (Z.leb_spec mg ng) as [Cf|Cf].
    + eapply sp_call with (Q1 := fun _ g' => delegated (reg aq) (permS aq v1)
        (Gst (dom g) (rd g) v1 (MAct a1) mg) a1 g'); [lia|exact I| |].
      * intros m4 Hm4. cbn [Typed.body]. rewrite long_unfold.
        eapply sp_conseq; [apply (IH m4 ltac:(lia) aq) with (a := a1); [lia|lia|reflexivity|exact Hidle1|split; cbn; auto|lia]
          |lia|]. cbn [val]. auto.
      * intros g3 m4 Hm4 Hdel. apply sp_ret. intros m5 Hm5.
        eapply Hgo; [exact Hm5|exact Hsa1| | | |exact Hdel|lia]; [reflexivity|reflexivity|reflexivity].
    + eapply sp_addinc; [reflexivity|apply Hidle1| |apply Hidle1| |].
      { cbn. destruct (Z.ltb_spec ng mg); [reflexivity|lia]. }
      { apply (twice_of kd tn HIns HRec aq ar); [lia|lia|intros i Hi; apply Hdom; auto|intros i Hi; apply Hdom; auto|exact Rdis]. }
      intros z m4 Hm4. eapply sp_forkcredit with (d1 := reg ar) (P1 := permS ar v1)
        (P2 := fun u => permS ar v1 u -> a_P a1 u);
        [reflexivity|reflexivity|apply Hidle1| | | | | | ].
      { intros i Hr. apply Hdom. auto. }
      { apply (many_of kd tn HIns HRec ar); [lia|auto]. }
      { apply (many_of kd tn HIns HRec aq); [lia|]. intros i Hi. split; [apply Hdom; auto|]. intro Ha. exact (Rdis i Hi Ha). }
      { cbn. auto. }
      * (* the new goroutine *)
        intros m5 Hm5. cbn [Typed.body]. unfold gLong.
        eapply sp_call with (Q1 := fun _ g' => delegated (reg ar) (permS ar v1)
          (Gst (reg ar) (reg ar) v1 (MAct (Act None (permS ar v1) false false None)) 0)
          (Act None (permS ar v1) false false None) g'); [lia|exact I| |].
        { intros m6 Hm6. cbn [Typed.body]. rewrite long_unfold.
          eapply sp_conseq; [apply (IH m6 ltac:(lia) ar) with (a := Act None (permS ar v1) false false None);
            [lia|lia|reflexivity|split; reflexivity|split; cbn; auto|lia]|lia|]. cbn [val]. auto. }
        intros g3 m6 Hm6 (O1 & a2 & Em & Ea & Hi & HO & HD & HR & HV & HP).
        cbn in Ea, HD, HR, HV, HP.
        eapply sp_adddec; [exact Em|apply Hi|apply Hi| |].
        { intros w Hw. apply HP; [|auto].
          intros i Hr Ho. apply Hw. apply HR. auto. }
        intros z' m7 Hm7 Hz'. unfold signed_off. rewrite Ea. destruct (Z.eqb_spec z' 0).
        -- apply sp_sendlast; [reflexivity|]. intros. apply sp_ret. reflexivity.
        -- apply sp_ret. reflexivity.
      * (* going on with the shorter range *)
        intros m5 Hm5. apply sp_ret. intros m6 Hm6. cbn [setval setseen setmd dom rd val md seen].
        set (a2 := forked (setcredit a1) (fun u => permS ar v1 u -> a_P a1 u)).
        eapply sp_conseq; [apply (IH m6 Hm6 aq) with (a := a2); [lia|lia|reflexivity|split; [reflexivity|apply Hidle1]| |lia]
                        |lia|].
        { cbn. split; cbn; intros i Hr; split; auto. }
        cbn [val]. intros _ g3 Hdel.
        eapply (delegated_fork (reg s) (reg aq) (reg ar)) with (S1 := permS aq v1) (S2 := permS ar v1)
          (g1 := Gst (dom g) (rd g) v1 (MAct (setcredit a1)) mg) (a1 := setcredit a1);
          [split; reflexivity|reflexivity|reflexivity|exact Hf1|exact Raq|exact Rar|exact Rdis
          |apply reg_dec|exact HJ|exact Hdel].
Qed.

(** X:263-272, func gLongX started on its own range. *)
Lemma sp_gLong m s v :
  maxRec < len s -> len s < 2 * wq -> (Z.to_nat (Z.log2 (len s) + 2) <= Dm)%nat ->
  sp m Dm QTS (body (PGLong s)) (Gst (reg s) (reg s) v (MAct (Act None (permS s v) false false None)) 0).
Proof.
  intros Hs Hb HDm. assert (L0 := Z.log2_nonneg (len s)). cbn [Typed.body]. unfold gLong.
  eapply sp_call with (Q1 := fun _ g' => delegated (reg s) (permS s v)
    (Gst (reg s) (reg s) v (MAct (Act None (permS s v) false false None)) 0)
    (Act None (permS s v) false false None) g'); [lia|exact I| |].
  { intros m6 Hm6. cbn [Typed.body]. rewrite long_unfold.
    eapply sp_conseq; [apply (sp_longC m6 s) with (a := Act None (permS s v) false false None);
      [lia|lia|reflexivity|split; reflexivity|split; cbn; auto|lia]|lia|]. cbn [val]. auto. }
  intros g3 m6 Hm6 (O1 & a2 & Em & Ea & Hi & HO & HD & HR & HV & HP).
  cbn in Ea, HD, HR, HV, HP.
  eapply sp_adddec; [exact Em|apply Hi|apply Hi| |].
  { intros w Hw. apply HP; [|auto]. intros i Hr Ho. apply Hw. apply HR. auto. }
  intros z' m7 Hm7 Hz'. unfold signed_off. rewrite Ea. destruct (Z.eqb_spec z' 0).
  - apply sp_sendlast; [reflexivity|]. intros. apply sp_ret. reflexivity.
  - apply sp_ret. reflexivity.
Qed.

(** X:182-214, func partConX. *)
Lemma sp_partCon m D s g a :
  2 * (maxRec + 1) <= len s -> len s < 2 * wq ->
  md g = MAct a -> a_main a <> None -> a_tok a = true -> idle a -> owns s g ->
  sp m D (fun k g' => exists a', md g' = MAct a' /\ a_main a' = a_main a /\ a_P a' = a_P a /\
          a_tok a' = true /\ idle a' /\
          (forall i, dom g' i <-> dom g i) /\ (forall i, rd g' i <-> rd g i) /\
          (forall i, rd g i -> ~ reg s i -> val g' i = val g i) /\
          0 <= k <= len s /\ permS s (val g) (val g'))
    (partCon kd meanI s) g.
Proof.
  intros Htw Hb Hmd Hmain Htok Hidle [Hdom Hrd]. assert (Hs : 24 <= len s) by lia.
  assert (Hlive : live g) by (unfold live; rewrite Hmd; exact I).
  unfold partCon. eapply sp_bseq with (D1 := O);
    [exact Hlive|apply (swp_pivot_any kd _ s nsConc (val g) 0); [left; reflexivity|unfold nsConc; lia|lia]
    |lia|exact Hrd|intros ? []|].
  cbv beta. intros pv v1 m1 Hm1 -> _.
  set (mid := Z.shiftr (len s) 1). set (l := Z.shiftr mid 1). set (h := meanI mid (len s)).
  cbv zeta.
  assert (Hmid : 12 <= mid /\ 2 * mid <= len s <= 2 * mid + 1).
  { unfold mid. rewrite shiftr1. destruct (half (len s)) as (y & E & Hy). rewrite E. lia. }
  assert (Hl : 6 <= l /\ 2 * l <= mid <= 2 * l + 1).
  { unfold l. rewrite shiftr1. destruct (half mid) as (y & E & Hy). rewrite E. lia. }
  assert (Hh : mid <= h < len s) by (unfold h; apply HmeanI; lia).
  clearbody mid l h.
  set (pl := Slice (off s + l) (h - l)).
  eapply sp_bseq with (n := O) (D1 := O)
    (Post := fun x v' => x = pl /\ v' = val g) (R1 := empty) (W1 := empty);
    [exact Hlive|apply swp_reslice; [lia|lia|lia|auto]|lia|intros ? []|intros ? []|].
  intros x v' m2 Hm2 [-> ->] _. cbn [setval dom rd val md seen]. sv.
  set (v0 := val g) in *. set (o := off s) in *.
  assert (Rms : forall i, reg pl i <-> o + l <= i < o + h) by (intro i; unfold reg, pl; simpl; lia).
  assert (Rs : forall i, reg s i <-> o <= i < o + len s) by (intro i; unfold reg; fold o; lia).
  assert (Msub : forall i, reg pl i -> reg s i) by (intros i; rewrite Rms, Rs; lia).
  assert (Rtwo : forall i, regTwo s (l - 1) h i <-> o <= i < o + l \/ o + h <= i < o + len s).
  { intro i. unfold regTwo. fold o. lia. }
  assert (Hlms : len pl = h - l) by reflexivity.
  eapply sp_forkpart with (dj := reg pl) (d2 := reg pl) (r2 := reg pl)
    (post := fun k w => anyOne pl v0 k w);
    [exact Hmd|exact Hmain|apply Hidle|exact Htok|apply Hidle|intros; apply Hdom; auto|auto|auto| | | | ].
  { apply (twice_one kd tn HIns HRec s); [exact Htw|exact Hdom]. }
  { intro i. destruct (reg_dec pl i); auto. }
  { (* the partner *)
    intros m3 Hm3. cbn [Typed.body]. unfold gPartOne.
    eapply sp_bseq with (D1 := O); [exact I|apply (swp_partOne_any kd _ pv pl v0 0); lia
      |lia|auto|auto|].
    cbv beta. cbn [setval dom rd val md seen]. intros k v1 m4 Hm4 [Hk Hpk] _.
    eapply sp_sendpart; [reflexivity| |intros; apply sp_ret; reflexivity].
    intros w Hw. cbn [j_post]. split; [exact Hk|]. eapply (permS_local pl); [|exact Hpk]. exact Hw. }
  (* the caller: outer parts *)
  intros m3 Hm3. cbn [setval dom rd val md seen].
  replace (partTwo kd s l h pv) with (partTwo kd s (l - 1 + 1) h pv) by (f_equal; lia).
  eapply sp_bseq with (D1 := O);
    [exact I|apply (swp_partTwo_any kd _ pv s (l - 1) h v0 0); lia|lia| | |].
  { cbn. intros i Hi. apply Rtwo in Hi. split; [apply Hrd; rewrite Rs; lia|rewrite Rms; lia]. }
  { cbn. intros i Hi. apply Rtwo in Hi. split; [apply Hdom; rewrite Rs; lia|rewrite Rms; lia]. }
  cbv beta. cbn [setval dom rd val md seen]. intros r v3 m4 Hm4 (P2 & Htwo) Hf3.
  eapply sp_recvjoin; [reflexivity|reflexivity|].
  cbn [setval setjoin dom rd val md seen j_post j_D]. intros km w m5 Hm5 Hw (Hkm & P1).
  assert (Ew : forall i, rd g i -> ~ reg pl i -> w i = v3 i).
  { intros i Hi Hn. apply Hw. cbn. split; assumption. }
  assert (Eout : forall i, o <= i < o + l \/ o + h <= i < o + len s -> w i = v3 i).
  { intros i Hi. apply Ew; [apply Hrd; rewrite Rs; lia|rewrite Rms; lia]. }
  rewrite Hlms in *. change (off pl) with (o + l) in *.
  assert (Hperm : permR o (o + len s) v0 w).
  { apply (permR_outer s (l - 1) h); [lia|lia|lia| |].
    - eapply permL_trans; [exact P2|]. apply permL_ext. intros i Hi. symmetry. apply Eout.
      apply cellsTwo_In in Hi. apply Rtwo in Hi. exact Hi.
    - fold o. replace (o + (l - 1) + 1) with (o + l) by lia.
      replace (o + l + (h - l)) with (o + h) in P1 by lia. exact P1. }
  set (a1 := setjoin a None).
  set (g3 := Gst (union (minus (dom g) (reg pl)) (reg pl)) (union (minus (rd g) (reg pl)) (reg pl)) w
               (MAct a1) (seen g)).
  assert (Hg3d : forall i, dom g3 i <-> dom g i).
  { intro i. cbn. unfold union, minus. destruct (reg_dec pl i) as [Hm|Hm]; [|tauto].
    generalize (Hdom i (Msub i Hm)). tauto. }
  assert (Hg3r : forall i, rd g3 i <-> rd g i).
  { intro i. cbn. unfold union, minus. destruct (reg_dec pl i) as [Hm|Hm]; [|tauto].
    generalize (Hrd i (Msub i Hm)). tauto. }
  assert (Fin : forall k v', anyOne s w k v' -> (forall i, ~ reg s i -> v' i = w i) ->
    exists a', md (setval g3 v') = MAct a' /\ a_main a' = a_main a /\ a_P a' = a_P a /\
          a_tok a' = true /\ idle a' /\
          (forall i, dom (setval g3 v') i <-> dom g i) /\ (forall i, rd (setval g3 v') i <-> rd g i) /\
          (forall i, rd g i -> ~ reg s i -> val (setval g3 v') i = v0 i) /\
          0 <= k <= len s /\ permS s v0 (val (setval g3 v'))).
  { intros k v' [Hk Hpk] Hf. exists a1. split; [reflexivity|]. split; [reflexivity|]. split; [reflexivity|].
    split; [exact Htok|]. split; [split; [apply Hidle|reflexivity]|]. split; [exact Hg3d|].
    split; [exact Hg3r|]. split; [|split; [exact Hk|eapply permR_trans; [exact Hperm|exact Hpk]]].
    intros i Hi Hn. cbn. rewrite Hf by exact Hn. rewrite Ew; [|exact Hi|intro Hm; apply Hn; auto].
    apply Hf3. rewrite Rtwo. rewrite Rs in Hn. lia. }
  assert (Hc : r < mid /\ -1 <= r /\ r < l + km \/ mid <= r /\ l + km <= r /\ r <= len s) by lia.
  destruct Hc as [Hc|Hc].
  - destruct (Z.ltb_spec r mid) as [_|]; [|lia].
    eapply sp_seq with (g := g3) (D1 := O);
      [exact I|apply (swp_gapLow_any kd _ pv s w r (l + km) 0); lia
      |lia|intros i Hi; apply Hg3r; auto|intros i Hi; apply Hg3d; auto|].
    cbv beta. intros k _ v' Hk Hf. apply Fin; [exact Hk|exact Hf].
  - destruct (Z.ltb_spec r mid) as [|_]; [lia|].
    eapply sp_seq with (g := g3) (D1 := O);
      [exact I|apply (swp_gapHigh_any kd _ pv s w r (l + km) 0); lia
      |lia|intros i Hi; apply Hg3r; auto|intros i Hi; apply Hg3d; auto|].
    cbv beta. intros k _ v' Hk Hf. apply Fin; [exact Hk|exact Hf].
Qed.

(** ** The concurrent part of sortX *)

Hypothesis HRec2 : maxRec < wq - 1.

Definition AInv (Pr : promise T) (ar : slice) (g : gst T) (a : act T) : Prop :=
  md g = MAct a /\ a_main a = Some Pr /\ idle a /\
  (forall i, reg ar i -> dom g i) /\ (forall i, dom g i -> rd g i) /\
  maxRec < len ar < 2 * wq /\
  forall w, (forall i, dom g i -> ~ reg ar i -> w i = val g i) ->
            permS ar (val g) w -> a_P a w.

Lemma sp_mainLoop Pr : forall m s g a,
  2 * (maxRec + 1) <= len s -> AInv Pr s g a -> a_tok a = true ->
  (Z.to_nat (Z.log2 (len s) + 2) <= Dm)%nat ->
  sp m (Z.to_nat (Z.log2 (len s) + 2))
    (fun ar g' => len ar <= len s /\ exists a', AInv Pr ar g' a')
    (Loop s (mainBody kd tn meanI)) g.
Proof.
  intro m. induction m as [m IH] using lt_wf_ind. intros s g a Hs Hinv Htok HDm.
  destruct Hinv as (Hmd & Hmain & Hidle & Hdom & Hdr & Hlen & HP).
  assert (Hrd : forall i, reg s i -> rd g i) by (intros; apply Hdr; auto).
  assert (Hlive : live g) by (unfold live; rewrite Hmd; exact I).
  apply sp_loop_step. intros m1 Hm1. unfold mainBody at 1.
  eapply sp_bind; [apply (sp_partCon m1 _ s g a); [lia|lia|exact Hmd|congruence|exact Htok|exact Hidle|split; assumption]|].
  cbv beta. intros k g1 m2 Hm2 (a1 & Hmd1 & Hmain1 & HP1 & Htok1 & Hidle1 & Hd1 & Hr1 & Hf1 & Hk & Hp1).
  assert (Hlive1 : live g1) by (unfold live; rewrite Hmd1; exact I).
  eapply sp_bseq with (n := O) (D1 := O) (R1 := empty) (W1 := empty)
    (Post := fun '(aq, br) v' => isSplit s k aq br /\ v' = val g1);
    [exact Hlive1|apply swp_split; [lia|auto]|lia|intros ? []|intros ? []|].
  intros [aq ar] v' m3 Hm3 [Hsp ->] _.
  replace (setval g1 (val g1)) with g1 by (destruct g1; reflexivity).
  destruct (isSplit_any s k aq ar Hk Hsp) as (Wq & Wr & Rdis & Hq0 & Hsum & Hle & Hoff).
  set (v1 := val g1) in *.
  assert (Lq : len aq = 0 \/ Z.log2 (len aq) + 1 <= Z.log2 (len s)).
  { destruct (Z.eq_dec (len aq) 0); [left; assumption|right; apply log2_half; lia]. }
  assert (Lr : Z.log2 (len ar) <= Z.log2 (len s)) by (apply Z.log2_le_mono; lia).
  assert (Ls := Z.log2_nonneg (len s)). assert (Lq0 := Z.log2_nonneg (len aq)).
  assert (Lr0 := Z.log2_nonneg (len ar)).
  assert (Raq : forall i, reg aq i -> reg s i) by (intros i; apply within_reg; exact Wq).
  assert (Rar : forall i, reg ar i -> reg s i) by (intros i; apply within_reg; exact Wr).
  assert (Rdis' : forall i, reg ar i -> ~ reg aq i) by (intros i H1 H2; exact (Rdis i H2 H1)).
  assert (HJ : forall u, permS aq v1 u -> permS ar v1 u -> permS s (val g) u).
  { intros u Hu1 Hu2. eapply permS_join; eassumption. }
  assert (Hbig : maxRec < len ar) by lia.
  (* what follows once the shorter range is dealt with *)
  assert (Hgo : forall m4 g2 a2, (m4 < m)%nat -> AInv Pr ar g2 a2 ->
    sp m4 (Z.to_nat (Z.log2 (len s) + 2))
      (fun r g' => match r with
         | inl s' => forall m'', (m'' < m)%nat -> sp m'' (Z.to_nat (Z.log2 (len s) + 2))
             (fun ar g' => len ar <= len s /\ exists a', AInv Pr ar g' a')
             (Loop s' (mainBody kd tn meanI)) g'
         | inr ar => len ar <= len s /\ exists a', AInv Pr ar g' a'
         end)
      (if len ar <? minConc kd tn then Ret (inr ar)
       else Bind gorFull (fun full : bool => if full then Ret (inr ar) else Ret (inl ar))) g2).
  { intros m4 g2 a2 Hm4 Hi2.
    rewrite (minConc_plain kd tn HIns HRec HRec2). destruct (Z.ltb_spec (len ar) (2 * (maxRec + 1))) as [Cs|Cs].
    { apply sp_ret. split; [lia|]. exists a2; exact Hi2. }
    assert (Hi2' := Hi2). destruct Hi2' as (Hmd2 & Hmain2 & Hidle2 & Hdom2 & Hdr2 & Hlen2 & HP2).
    unfold gorFull. eapply sp_bind with (Q1 := fun b g' => exists mg ng, b = (mg <=? ng) /\
      g' = setmd (setseen g2 mg) (MAct (settok a2 (ng <? mg)))).
    { apply sp_loadmax; [unfold live; rewrite Hmd2; exact I|]. intros mg m5 Hm5 Hmg.
      eapply sp_loadgor; [exact Hmd2|apply Hidle2|apply Hidle2|]. intros ng m6 Hm6.
      apply sp_ret. exists mg, ng. split; reflexivity. }
    intros full g3 m5 Hm5 (mg & ng & -> & ->).
    set (a3 := settok a2 (ng <? mg)).
    set (g3 := setmd (setseen g2 mg) (MAct a3)).
    assert (Hi3 : AInv Pr ar g3 a3).
    { split; [reflexivity|]. split; [exact Hmain2|]. split; [exact Hidle2|]. split; [exact Hdom2|].
      split; [exact Hdr2|]. split; [exact Hlen2|exact HP2]. }
    destruct (Z.leb_spec mg ng) as [Cf|Cf]; apply sp_ret.
    - split; [lia|]. exists a3; exact Hi3.
    - intros m6 Hm6. eapply sp_conseq; [apply (IH m6 Hm6 ar) with (a := a3); [lia|exact Hi3| |lia]|lia|].
      + cbn. destruct (Z.ltb_spec ng mg); [reflexivity|lia].
      + cbv beta. intros ar' g' (Hl & Ha). split; [lia|exact Ha]. }
  destruct (Z.ltb_spec maxRec (len aq)) as [Cc|Cc].
  - (* a goroutine for the shorter range *)
    assert (Hoff1 : reg aq (off aq)) by (unfold reg; lia).
    assert (Hoff2 : reg ar (off ar)) by (unfold reg; lia).
    eapply sp_bind with (Q1 := fun _ g' => g' = Gst (minus (dom g1) (reg aq)) (minus (rd g1) (reg aq)) v1
       (MAct (forked (setcredit a1) (fun u => permS aq v1 u -> a_P a1 u))) (seen g1)).
    { eapply sp_addinc; [exact Hmd1|apply Hidle1|exact Htok1|apply Hidle1| |].
      { apply (twice_of kd tn HIns HRec aq ar); [lia|lia|intros i Hi; apply Hd1, Hdom; auto|intros i Hi; apply Hd1, Hdom; auto|exact Rdis]. }
      intros z m4 Hm4. eapply sp_forkcredit with (d1 := reg aq) (P1 := permS aq v1)
          (P2 := fun u => permS aq v1 u -> a_P a1 u);
          [reflexivity|reflexivity|apply Hidle1| | | | | | ].
      { intros i Hr. apply Hd1, Hdom. auto. }
      { apply (many_of kd tn HIns HRec aq); [lia|auto]. }
      { apply (many_of kd tn HIns HRec ar); [lia|]. intros i Hi. split; [apply Hd1, Hdom; auto|]. intro Ha. exact (Rdis i Ha Hi). }
      { cbn. auto. }
      + intros m5 Hm5. apply sp_gLong; lia.
      + intros m5 Hm5. apply sp_ret. reflexivity. }
    intros _ g2 m4 Hm4 ->.
    apply (Hgo _ _ (forked (setcredit a1) (fun u => permS aq v1 u -> a_P a1 u))); [lia|].
    split; [reflexivity|]. split; [exact (eq_trans Hmain1 Hmain)|]. split; [split; [reflexivity|apply Hidle1]|].
    cbn [dom rd val]. split.
    { intros i Hr. split; [apply Hd1, Hdom; auto|auto]. }
    split; [intros i [H1 H2]; split; [apply Hr1, Hdr, Hd1; exact H1|exact H2]|].
    split; [lia|].
    cbn [forked a_P]. intros w Hw Hs1 Hs2. rewrite HP1. apply HP; [|apply HJ; assumption].
    intros i Hi Hn. rewrite Hw; [apply Hf1; [auto|exact Hn]|split; [apply Hd1; exact Hi|auto]|auto].
  - eapply sp_bind with (Q1 := fun _ g' => stays aq g1 g').
    { eapply sp_conseq; [apply (sp_small m3 aq g1); [lia|lia|exact Hlive1|]|..|auto].
      - split; intros i Hi; [apply Hd1, Hdom|apply Hr1, Hrd]; auto.
      - destruct Lq as [E|]; [rewrite E; change (Z.log2 0) with 0; lia|lia]. }
    intros _ g2 m4 Hm4 (v2 & -> & Hsq & Hf2). fold v1 in Hsq, Hf2.
    apply (Hgo _ _ a1); [lia|].
    split; [exact Hmd1|]. split; [exact (eq_trans Hmain1 Hmain)|]. split; [exact Hidle1|].
    cbn [setval dom rd val]. split; [intros i Hr; apply Hd1, Hdom; auto|].
    split; [intros i Hi; apply Hr1, Hdr, Hd1; exact Hi|].
    assert (E12 : forall i, reg ar i -> v2 i = v1 i) by (intros i Hi; apply Hf2; auto).
    split; [lia|].
    intros w Hw Hs2. rewrite HP1. apply HP.
    + intros i Hi Hn. rewrite Hw; [|apply Hd1; exact Hi|auto]. rewrite Hf2 by auto. apply Hf1; auto.
    + apply HJ.
      * eapply permS_local; [|exact Hsq]. intros i Hi. apply Hw; [apply Hd1, Hdom; auto|auto].
      * eapply permS_init; [|exact Hs2]. intros i Hi. symmetry. auto.
Qed.

(** [s] was rearranged, the other cells of [X] kept. *)
Definition permX (X : cells) (s : slice) (v w : Z -> T) : Prop :=
  permS s v w /\ forall i, X i -> ~ reg s i -> w i = v i.

Lemma sp_sortConc m (X : cells) s v (sn : Z) : (forall i, reg s i -> X i) ->
  2 * (maxRec + 1) <= len s -> len s < 2 * wq -> 1 < sn ->
  (Z.to_nat (Z.log2 (len s) + 2) <= Dm)%nat ->
  sp m (Z.to_nat (Z.log2 (len s) + 2)) (QMS (fun _ w => permX X s v w))
    (sortConc kd tn meanI s) (Gst X X v MInit sn).
Proof.
  intros HX Hs Hb Hsn HDm. rewrite sortConc_unfold. assert (L0 := Z.log2_nonneg (len s)).
  apply (sp_makesv body Dm m _ _ _ _ (fun w => permX X s v w)); [reflexivity|exact Hsn| |].
  { apply (many_of kd tn HIns HRec s); [lia|exact HX]. }
  intros m1 Hm1.
  set (Pr := fun w => permX X s v w). set (a0 := Act (Some Pr) Pr false true None).
  eapply sp_bind; [apply (sp_mainLoop Pr m1 s) with (a := a0); [exact Hs| |reflexivity|exact HDm]|].
  { split; [reflexivity|]. split; [reflexivity|]. split; [split; reflexivity|].
    split; [auto|]. split; [auto|]. split; [lia|]. intros w Hw Hsw. split; [exact Hsw|exact Hw]. }
  cbv beta. intros ar g1 m2 Hm2 (Hl1 & (a1 & Hinv)).
  destruct Hinv as (Hmd & Hmain & Hidle & Hdom & Hdr & Hlen & HP).
  assert (L2 := Z.log2_nonneg (len ar)).
  assert (L3 : Z.log2 (len ar) <= Z.log2 (len s)) by (apply Z.log2_le_mono; lia).
  eapply sp_call with (Q1 := fun _ g' => delegated (reg ar) (permS ar (val g1)) g1 a1 g');
    [lia|unfold live; rewrite Hmd; exact I| |].
  { intros m3 _. cbn [Typed.body]. rewrite long_unfold.
    eapply sp_conseq; [apply (sp_longC m3 ar g1 a1); [lia|lia|exact Hmd|exact Hidle|split; auto|lia]|lia|auto]. }
  intros g2 m3 Hm3 (O & a2 & Em & Ea & Hi & HO & HD & HR & HV & HP2).
  eapply sp_adddec; [exact Em|apply Hi|apply Hi| |].
  - intros w Hw. apply HP2.
    + intros i Hr Ho. apply Hw. apply HR. auto.
    + intros u Hu Hsu. apply HP; [|exact Hsu]. intros i Hdi Hn.
      assert (Ho : ~ O i) by (intro Ho; apply Hn; auto).
      rewrite Hu by exact Ho. rewrite Hw; [apply HV; exact Hn|]. apply HR. auto.
  - intros z m4 Hm4 Hz. unfold signed_off. rewrite Ea, Hmain. destruct (Z.eqb_spec z 0).
    + apply sp_ret. cbn. auto.
    + eapply sp_recvwait; [reflexivity|]. intros _ m5 Hm5. apply sp_ret. cbn. auto.
Qed.

(** X:319-375, func sortX, started by its caller. *)
Lemma sp_sort m (X : cells) s v sn0 md0 : (forall i, reg s i -> X i) ->
  0 <= len s -> len s < 2 * wq ->
  md0 = MInit \/ (md0 = MSeq /\ len s < 2 * (maxRec + 1)) ->
  (Z.to_nat (Z.log2 (len s) + 2) <= Dm)%nat ->
  sp m (Z.to_nat (Z.log2 (len s) + 2)) (QMS (fun _ w => permX X s v w))
    (sort kd tn meanI s) (Gst X X v md0 sn0).
Proof.
  intros HX H0 Hb Hmd HDm. unfold sort.
  assert (Hlive : match md0 with MSeq | MInit => True | _ => False end) by (destruct Hmd as [->|[-> _]]; exact I).
  assert (L0 := Z.log2_nonneg (len s)).
  assert (Hseq : forall sn m, sp m (Z.to_nat (Z.log2 (len s) + 2)) (QMS (fun _ w => permX X s v w))
      (if maxRec <? len s then Call (PLong s false) (Ret tt)
       else if maxIns <? len s then Call (PShort s) (Ret tt) else insertion (ltT kd) s)
      (Gst X X v md0 sn)).
  { intros sn m'. set (g := Gst X X v md0 sn).
    assert (Hl : live g) by (unfold live, g; cbn [md]; destruct md0; tauto).
    assert (Ho : owns s g) by (split; exact HX).
    assert (G : forall (x : unit) g', stays s g g' -> QMS (fun _ w => permX X s v w) x g').
    { intros x g' (v' & -> & Hp & Hf). unfold QMS, QM. cbn [md setval g].
      assert (G : forall w, agrees (setval g v') w -> permX X s v w).
      { intros w Hw. split; [eapply permS_local; [|exact Hp]; intros i Hi; apply Hw; apply HX; exact Hi|].
        intros i Hi Hni. rewrite Hw by exact Hi. apply Hf. exact Hni. }
      destruct md0; try contradiction; exact G. }
    destruct (Z.ltb_spec maxRec (len s)) as [C|C].
    - eapply sp_call with (Q1 := fun _ g' => stays s g g'); [lia|exact Hl| |].
      + intros m2 _. cbn [Typed.body]. eapply sp_conseq; [apply sp_long; assumption|lia|auto].
      + intros g' m2 _ H. apply sp_ret. apply G. exact H.
    - eapply sp_conseq; [apply (sp_small m' s g H0 Hb Hl Ho)|lia|exact G]. }
  eapply sp_bind with (Q1 := fun b g' => exists sn, g' = Gst X X v md0 sn /\
    (b = false -> 1 < sn /\ 2 * (maxRec + 1) <= len s)).
  - rewrite (minConc_plain kd tn HIns HRec HRec2). destruct (Z.ltb_spec (len s) (2 * (maxRec + 1))) as [C|C].
    + apply sp_ret. exists sn0. split; [reflexivity|discriminate].
    + apply sp_loadmax; [unfold live; cbn [md]; destruct md0; tauto|]. intros mg m1 Hm1 Hmg.
      apply sp_ret. exists mg. split; [reflexivity|]. intro E. apply Z.leb_gt in E. lia.
  - intros [|] g' m1 Hm1 (sn & -> & Hsn); [apply Hseq|].
    destruct (Hsn eq_refl) as [Hsn1 Hsn2]. destruct Hmd as [->|[_ Hmd]]; [|lia].
    apply sp_sortConc; assumption.
Qed.

End Any.
