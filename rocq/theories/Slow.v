(** * Inputs that take quadratic time: lower bounds on steps *)

From Coq Require Import List ZArith Lia Bool Permutation.
From Verif Require Import Lang SeqLogic Base Scalar ScalarFacts Typed SeqOps TypedPart TypedPivot TypedShort.
Import ListNotations.
Open Scope Z_scope.
Local Arguments Z.mul : simpl never.
Local Arguments Z.add : simpl never.
Local Arguments Z.sub : simpl never.

Section Run.
Context {P T : Type}.
Variable body : P -> cmd P T unit.

(** Running alone, [c] returns, after at least [z] steps, with a result and a state as in [Q]. *)
Inductive ends {A} (c : cmd P T A) (s : shared T) (Q : A -> shared T -> Prop) (z : Z) : Prop :=
| ends_now a : view c = HRet a -> Q a s -> z <= 0 -> ends c s Q z
| ends_later c' s' : exec_local body c s = Some (c', s', []) -> ends c' s' Q (z - 1) -> ends c s Q z.

(** Running alone, [c] takes at least [z] steps. *)
Inductive lasts {A} (c : cmd P T A) (s : shared T) (z : Z) : Prop :=
| lasts_enough : z <= 0 -> lasts c s z
| lasts_later c' s' : exec_local body c s = Some (c', s', []) -> lasts c' s' (z - 1) -> lasts c s z.

Lemma lasts_exec {R} M Rg (c : cmd P T R) s z : lasts c s z ->
  exists k st, z <= Z.of_nat k /\ exec body M Rg k (St c [] s) st.
Proof.
  enough (H : lasts c s z -> forall s0 k, exec body M Rg k s0 (St c [] s) ->
            exists k' st, z + Z.of_nat k <= Z.of_nat k' /\ exec body M Rg k' s0 st).
  { intro L. destruct (H L (St c [] s) O (exec_refl _ _ _ _)) as (k & st & Hk & Hx). exists k, st. split; [lia|exact Hx]. }
  induction 1 as [c s z Hz|c s z c' s' E H IH]; intros s0 k Hx.
  - exists k, (St c [] s). split; [lia|exact Hx].
  - destruct (IH s0 (S k)) as (k' & st & Hk & Hx').
    { eapply exec_prog; [exact Hx|]. apply step_now. exact (step_main body c [] s c' s' [] E). }
    exists k', st. split; [lia|exact Hx'].
Qed.

Lemma lasts_mono {A} (c : cmd P T A) s z z' : lasts c s z -> z' <= z -> lasts c s z'.
Proof.
  intro H. revert z'. induction H as [c s z Hz|c s z c' s' E H IH]; intros z' L; [apply lasts_enough; lia|].
  eapply lasts_later; [exact E|]. apply IH. lia.
Qed.

Lemma ends_mono {A} (c : cmd P T A) s (Q Q' : A -> shared T -> Prop) z z' : ends c s Q z -> z' <= z ->
  (forall a s1, Q a s1 -> Q' a s1) -> ends c s Q' z'.
Proof.
  intros H. revert z'. induction H as [c s Q z a E Hq Hz|c s Q z c' s' E H IH]; intros z' L HQ.
  - eapply ends_now; [exact E|auto|lia].
  - eapply ends_later; [exact E|]. apply IH; [lia|exact HQ].
Qed.

Lemma run_bind {A B} (c : cmd P T A) (k : A -> cmd P T B) s c' s' fs : exec_local body c s = Some (c', s', fs) ->
  exec_local body (Bind c k) s = Some (Bind c' k, s', fs).
Proof.
  unfold exec_local. cbn [view]. destruct (view c); cbn [hcont]; intro E; inversion E; subst; reflexivity.
Qed.

Lemma ends_view {A} (c d : cmd P T A) s Q z : view c = view d -> ends c s Q z -> ends d s Q z.
Proof.
  intros E H. destruct H as [a H Hq Hz|c' s' H F].
  - eapply ends_now; [rewrite <- E; exact H|exact Hq|exact Hz].
  - eapply ends_later; [|exact F]. unfold exec_local in *. rewrite <- E. exact H.
Qed.

Lemma lasts_view {A} (c d : cmd P T A) s z : view c = view d -> lasts c s z -> lasts d s z.
Proof.
  intros E H. destruct H as [Hz|c' s' H F]; [apply lasts_enough; exact Hz|].
  eapply lasts_later; [|exact F]. unfold exec_local in *. rewrite <- E. exact H.
Qed.

Lemma ends_bind {A B} (c : cmd P T A) (k : A -> cmd P T B) s Q z1 z2 z :
  ends c s (fun a s1 => ends (k a) s1 Q z2) z1 -> z <= z1 + z2 -> ends (Bind c k) s Q z.
Proof.
  intro H. remember (fun a s1 => ends (k a) s1 Q z2) as Q1 eqn:EQ. revert z.
  induction H as [c s Q1 z1 a E Hq Hz|c s Q1 z1 c' s' E H IH]; intros z L; subst Q1.
  - apply (ends_view (k a)); [cbn [view]; rewrite E; reflexivity|]. eapply ends_mono; [exact Hq|lia|auto].
  - eapply ends_later; [apply run_bind; exact E|]. apply IH; [reflexivity|lia].
Qed.

Lemma lasts_bind {A B} (c : cmd P T A) (k : A -> cmd P T B) s z1 z2 z :
  ends c s (fun a s1 => lasts (k a) s1 z2) z1 -> z <= z1 + z2 -> lasts (Bind c k) s z.
Proof.
  intro H. remember (fun a s1 => lasts (k a) s1 z2) as Q1 eqn:EQ. revert z.
  induction H as [c s Q1 z1 a E Hq Hz|c s Q1 z1 c' s' E H IH]; intros z L; subst Q1.
  - apply (lasts_view (k a)); [cbn [view]; rewrite E; reflexivity|]. eapply lasts_mono; [exact Hq|lia].
  - eapply lasts_later; [apply run_bind; exact E|]. apply IH; [reflexivity|lia].
Qed.

Lemma lasts_first {A B} (c : cmd P T A) (k : A -> cmd P T B) s z : lasts c s z -> lasts (Bind c k) s z.
Proof.
  induction 1 as [c s z Hz|c s z c' s' E H IH]; [apply lasts_enough; exact Hz|].
  eapply lasts_later; [apply run_bind; exact E|exact IH].
Qed.

Lemma ends_ret {A} (a : A) s (Q : A -> shared T -> Prop) z : Q a s -> z <= 0 -> ends (Ret a) s Q z.
Proof. intros H Hz. eapply ends_now; [reflexivity|exact H|exact Hz]. Qed.

Lemma ends_loop {A S} (x : S) (b : S -> cmd P T (S + A)) s Q z z2 z1 :
  ends (b x) s (fun r s1 => match r with inl x' => ends (Loop x' b) s1 Q z2 | inr a => Q a s1 /\ z2 <= 0 end) z1 ->
  z <= z1 + z2 -> ends (Loop x b) s Q z.
Proof.
  intros H Hz. eapply ends_later; [reflexivity|]. eapply (ends_bind _ _ _ _ z1 z2); [|lia].
  eapply ends_mono; [exact H|lia|]. intros [x'|a] s1 H1; [exact H1|]. destruct H1. apply ends_ret; assumption.
Qed.

Lemma lasts_loop {A S} (x : S) (b : S -> cmd P T (S + A)) s z :
  lasts (Bind (b x) (fun r => match r with inl x' => Loop x' b | inr a => Ret a end)) s z -> lasts (Loop x b) s z.
Proof. intro H. eapply lasts_later; [reflexivity|]. eapply lasts_mono; [exact H|lia]. Qed.

Lemma lasts_call {A} p (k : cmd P T A) s z : lasts (body p) s z -> lasts (Lang.Call p k) s z.
Proof.
  intro H. eapply lasts_later; [reflexivity|]. cbn. apply (lasts_mono _ _ z); [|lia].
  induction H as [c s z Hz|c s z c' s' E H IH]; [apply lasts_enough; exact Hz|].
  eapply lasts_later; [|exact IH]. unfold exec_local in *. cbn [view].
  destruct (view c); cbn [hcont]; inversion E; subst; reflexivity.
Qed.

Lemma ends_sget sl i s (Q : T -> shared T -> Prop) z : 0 <= i < len sl -> Q (mem s (off sl + i)) s -> z <= 1 ->
  ends (sget sl i) s Q z.
Proof.
  intros Hi H Hz. unfold sget. destruct (Z.leb_spec 0 i); [|lia]. destruct (Z.ltb_spec i (len sl)); [|lia]. cbn [andb].
  eapply ends_later; [reflexivity|]. apply ends_ret; [exact H|lia].
Qed.

Lemma ends_sset sl i x s (Q : unit -> shared T -> Prop) z : 0 <= i < len sl ->
  Q tt (Sh (upd (mem s) (off sl + i) x) (ngor s) (maxg s) (chans s)) -> z <= 1 -> ends (sset sl i x) s Q z.
Proof.
  intros Hi H Hz. unfold sset. destruct (Z.leb_spec 0 i); [|lia]. destruct (Z.ltb_spec i (len sl)); [|lia]. cbn [andb].
  eapply ends_later; [reflexivity|]. apply ends_ret; [exact H|lia].
Qed.

(** What the sequential logic proves ends. *)
Lemma swp_ends {A} D (Rd Wr : Z -> Prop) (Q : A -> nat -> (Z -> T) -> Prop) n : forall (c : cmd P T A) s z, z <= 0 ->
  swp body D n Rd Wr Q c (mem s) -> ends c s (fun a s1 => exists m, Q a m (mem s1)) z.
Proof.
  induction n as [|n IH]; intros c s z Hz H; rewrite swp_eq in H; destruct H as [_ H];
    destruct (view c) eqn:E; try contradiction.
  - eapply ends_now; [exact E|exists O; exact H|exact Hz].
  - eapply ends_now; [exact E|exists (S n); exact H|exact Hz].
  - eapply ends_later; [unfold exec_local; rewrite E; reflexivity|]. apply IH; [lia|exact H].
  - eapply ends_later; [unfold exec_local; rewrite E; reflexivity|]. apply IH; [lia|apply H].
  - eapply ends_later; [unfold exec_local; rewrite E; reflexivity|]. apply IH; [lia|apply H].
  - eapply ends_later; [unfold exec_local; rewrite E; reflexivity|]. apply IH; [lia|exact H].
Qed.

End Run.

(** ** Exchanges of cells *)

Definition sw (i j x : Z) : Z := if x =? i then j else if x =? j then i else x.

Lemma sw_sw i j x : sw i j (sw i j x) = x.
Proof. unfold sw. destruct (Z.eqb_spec x i); destruct (Z.eqb_spec x j); subst; rewrite ?Z.eqb_refl; auto;
  repeat match goal with |- context [?a =? ?b] => destruct (Z.eqb_spec a b) end; lia. Qed.
Lemma sw_other i j x : x <> i -> x <> j -> sw i j x = x.
Proof. intros. unfold sw. destruct (Z.eqb_spec x i); destruct (Z.eqb_spec x j); lia. Qed.
Lemma sw_l i j : sw i j i = j.
Proof. unfold sw. rewrite Z.eqb_refl. reflexivity. Qed.
Lemma sw_r i j : sw i j j = i.
Proof. unfold sw. rewrite Z.eqb_refl. destruct (Z.eqb_spec j i); auto. Qed.
Lemma sw_range i j x n : 0 <= i < n -> 0 <= j < n -> 0 <= x < n -> 0 <= sw i j x < n.
Proof. intros. unfold sw. destruct (x =? i); [lia|]. destruct (x =? j); lia. Qed.

(** Exchange l with the first of [ps], l+1 with the second, ... *)
Fixpoint sigma (ps : list Z) (l x : Z) : Z := match ps with [] => x | p :: ps => sw l p (sigma ps (l + 1) x) end.
(** The inverse. *)
Fixpoint tau (ps : list Z) (l x : Z) : Z := match ps with [] => x | p :: ps => tau ps (l + 1) (sw l p x) end.

Lemma sigma_tau ps : forall l x, sigma ps l (tau ps l x) = x.
Proof. induction ps as [|p ps IH]; intros l x; cbn [sigma tau]; [reflexivity|]. rewrite IH. apply sw_sw. Qed.
Lemma tau_sigma ps : forall l x, tau ps l (sigma ps l x) = x.
Proof. induction ps as [|p ps IH]; intros l x; cbn [sigma tau]; [reflexivity|]. rewrite sw_sw. apply IH. Qed.

(** [ps] goes down, from below [h], with gaps, and stays above the cells it is exchanged with. *)
Fixpoint desc (l h : Z) (ps : list Z) : Prop :=
  match ps with [] => l < h | p :: ps => p < h /\ desc (l + 1) (p - 1) ps end.

Lemma desc_lt ps : forall l h, desc l h ps -> l < h.
Proof. induction ps as [|p ps IH]; intros l h H; cbn [desc] in H; [exact H|]. destruct H as [H1 H2]. apply IH in H2. lia. Qed.

Lemma desc_in ps : forall l h p, desc l h ps -> In p ps -> l + Z.of_nat (length ps) < p < h.
Proof.
  induction ps as [|p ps IH]; intros l h q H Hq; [destruct Hq|]. cbn [desc] in H. destruct H as [H1 H2]. cbn [length].
  destruct Hq as [<-|Hq]; [|specialize (IH _ _ _ H2 Hq); lia].
  split; [|exact H1]. destruct ps as [|p' ps]; [cbn in *; lia|]. specialize (IH _ _ p' H2 (or_introl eq_refl)). lia.
Qed.

Lemma sigma_below ps : forall l h x, desc l h ps -> x < l -> sigma ps l x = x.
Proof.
  induction ps as [|p ps IH]; intros l h x H Hx; cbn [sigma]; [reflexivity|]. destruct H as [H1 H2].
  rewrite (IH _ _ x H2) by lia. assert (D := desc_lt _ _ _ H2). apply sw_other; lia.
Qed.

Lemma tau_below ps : forall l h x, desc l h ps -> x < l -> tau ps l x = x.
Proof. intros l h x H Hx. rewrite <- (sigma_below ps l h x H Hx) at 1. apply tau_sigma. Qed.

Lemma sigma_low ps : forall l h x, desc l h ps -> l <= x < l + Z.of_nat (length ps) -> In (sigma ps l x) ps.
Proof.
  induction ps as [|p ps IH]; intros l h x H Hx; cbn [length] in Hx; [cbn in Hx; lia|]. destruct H as [H1 H2]. cbn [sigma].
  destruct (Z.eq_dec x l) as [->|Ne].
  - rewrite (sigma_below ps (l + 1) (p - 1)) by (auto; lia). rewrite sw_l. left. reflexivity.
  - assert (Hi : In (sigma ps (l + 1) x) ps) by (apply (IH (l + 1) (p - 1)); [exact H2|lia]).
    assert (D := desc_in _ _ _ _ H2 Hi). right. rewrite sw_other by lia. exact Hi.
Qed.

Lemma tau_low ps : forall l h p, desc l h ps -> In p ps -> l <= tau ps l p < l + Z.of_nat (length ps).
Proof.
  induction ps as [|p ps IH]; intros l h q H Hq; [destruct Hq|]. destruct H as [H1 H2]. cbn [tau length].
  destruct (Z.eq_dec q p) as [->|Ne].
  - rewrite sw_r, (tau_below ps (l + 1) (p - 1)) by (auto; lia). lia.
  - destruct Hq as [->|Hq]; [lia|]. assert (D := desc_in _ _ _ _ H2 Hq). rewrite sw_other by lia.
    specialize (IH _ _ _ H2 Hq). lia.
Qed.

Lemma sigma_range ps n : forall l h x, desc l h ps -> 0 <= l -> h < n -> 0 <= x < n -> 0 <= sigma ps l x < n.
Proof.
  induction ps as [|p ps IH]; intros l h x H Hl Hh Hx; cbn [sigma]; [exact Hx|]. destruct H as [H1 H2].
  assert (D := desc_lt _ _ _ H2). apply sw_range; [lia|lia|]. apply (IH (l + 1) (p - 1)); auto; lia.
Qed.

Lemma tau_range ps n : forall l h x, desc l h ps -> 0 <= l -> h < n -> 0 <= x < n -> 0 <= tau ps l x < n.
Proof.
  induction ps as [|p ps IH]; intros l h x H Hl Hh Hx; cbn [tau]; [exact Hx|]. destruct H as [H1 H2].
  assert (D := desc_lt _ _ _ H2). apply (IH (l + 1) (p - 1)); auto; [lia|lia|]. apply sw_range; lia.
Qed.
