(** * What sequential code computes

    [yields c v a w]: run alone on the memory [v], the program [c] returns [a] and leaves [w]. *)

From Coq Require Import List ZArith Lia Bool.
From Verif Require Import Lang SeqLogic.
Import ListNotations.
Open Scope Z_scope.

Section Yields.
Context {P T : Type}.
Variable body : P -> cmd P T unit.

Inductive yields (Rd : Z -> Prop) {A} (c : cmd P T A) (v : Z -> T) (a : A) (w : Z -> T) : Prop :=
| y_ret : view c = HRet a -> w = v -> yields Rd c v a w
| y_tau c' : view c = HTau c' -> yields Rd c' v a w -> yields Rd c v a w
| y_read i k : view c = HRead i k -> Rd i -> yields Rd (k (v i)) v a w -> yields Rd c v a w
| y_write i x k : view c = HWrite i x k -> Rd i -> yields Rd k (upd v i x) a w -> yields Rd c v a w
| y_call p k : view c = HCall p k -> yields Rd (k (body p)) v a w -> yields Rd c v a w.

Implicit Types Rd Wr : Z -> Prop.

(** There is only one result. *)
Lemma yields_fun Rd Rd' {A} (c : cmd P T A) v a w a' w' :
  yields Rd c v a w -> yields Rd' c v a' w' -> a' = a /\ w' = w.
Proof.
  intro H. induction H as [c v a w E Hw|c v a w c' E H IH|c v a w i k E Hi H IH|c v a w i x k E Hi H IH|c v a w p k E H IH]; intros H';
    destruct H' as [E' Hw'|c1 E' H'|i' k' E' Hi' H'|i' x' k' E' Hi' H'|p' k' E' H']; rewrite E in E'; inversion E'; subst; auto.
Qed.

Lemma yields_view Rd {A} (c d : cmd P T A) v a w : view c = view d -> yields Rd c v a w -> yields Rd d v a w.
Proof.
  intros V H. destruct H as [E Hw|c1 E H|i k E Hi H|i x k E Hi H|p k E H]; rewrite V in E;
    [eapply y_ret|eapply y_tau|eapply y_read|eapply y_write|eapply y_call]; eassumption.
Qed.

Lemma yields_mono Rd Rd' {A} (c : cmd P T A) v a w : yields Rd c v a w -> (forall i, Rd i -> Rd' i) -> yields Rd' c v a w.
Proof.
  intros H HR. induction H as [c v a w E Hw|c v a w c' E H IH|c v a w i k E Hi H IH|c v a w i x k E Hi H IH|c v a w p k E H IH];
    [eapply y_ret|eapply y_tau|eapply y_read|eapply y_write|eapply y_call]; eauto.
Qed.

Lemma yields_ret Rd {A} (a : A) v : yields Rd (Ret a) v a v.
Proof. apply y_ret; reflexivity. Qed.

Lemma yields_bind Rd {A B} (c : cmd P T B) (k : B -> cmd P T A) v b v1 a w :
  yields Rd c v b v1 -> yields Rd (k b) v1 a w -> yields Rd (Bind c k) v a w.
Proof.
  intros H. induction H as [c v b v1 E Hw|c v b v1 c' E H IH|c v b v1 i k0 E Hi H IH|c v b v1 i x k0 E Hi H IH|c v b v1 p k0 E H IH]; intros Hk.
  - subst v1. apply (yields_view Rd (k b)); [cbn [view]; rewrite E; reflexivity|exact Hk].
  - eapply y_tau; [cbn [view]; rewrite E; reflexivity|auto].
  - eapply y_read; [cbn [view]; rewrite E; reflexivity|exact Hi|auto].
  - eapply y_write; [cbn [view]; rewrite E; reflexivity|exact Hi|auto].
  - eapply y_call; [cbn [view]; rewrite E; reflexivity|auto].
Qed.

Lemma yields_loop Rd {A S} (x : S) (b : S -> cmd P T (S + A)) v r v1 a w :
  yields Rd (b x) v r v1 ->
  match r with inl x' => yields Rd (Loop x' b) v1 a w | inr a' => a' = a /\ w = v1 end ->
  yields Rd (Loop x b) v a w.
Proof.
  intros H Hr. eapply y_tau; [reflexivity|]. eapply yields_bind; [exact H|].
  destruct r as [x'|a']; [exact Hr|]. destruct Hr as [-> ->]. apply yields_ret.
Qed.

Lemma yields_incall Rd {A} (c : cmd P T unit) (k : cmd P T A) v v1 a w :
  yields Rd c v tt v1 -> yields Rd k v1 a w -> yields Rd (InCall c k) v a w.
Proof.
  intros H. remember tt as u eqn:Eu.
  induction H as [c v b v1 E Hw|c v b v1 c' E H IH|c v b v1 i k0 E Hi H IH|c v b v1 i x k0 E Hi H IH|c v b v1 p k0 E H IH]; intros Hk; subst.
  - eapply y_tau; [cbn [view]; rewrite E; reflexivity|exact Hk].
  - eapply y_tau; [cbn [view]; rewrite E; reflexivity|auto].
  - eapply y_read; [cbn [view]; rewrite E; reflexivity|exact Hi|auto].
  - eapply y_write; [cbn [view]; rewrite E; reflexivity|exact Hi|auto].
  - eapply y_call; [cbn [view]; rewrite E; reflexivity|auto].
Qed.

Lemma yields_call Rd {A} p (k : cmd P T A) v v1 a w :
  yields Rd (body p) v tt v1 -> yields Rd k v1 a w -> yields Rd (Call p k) v a w.
Proof. intros H Hk. eapply y_call; [reflexivity|]. eapply yields_incall; eassumption. Qed.

Lemma yields_incall_inv Rd {A} (c : cmd P T unit) (k : cmd P T A) v a w :
  yields Rd (InCall c k) v a w -> exists v1, yields Rd c v tt v1 /\ yields Rd k v1 a w.
Proof.
  intros H. remember (InCall c k) as d eqn:Ed. revert c Ed.
  induction H as [d v a w E Hw|d v a w c' E H IH|d v a w i k0 E Hi H IH|d v a w i x k0 E Hi H IH|d v a w p k0 E H IH]; intros c Ed; subst d;
    cbn [view] in E; destruct (view c) eqn:Ev; simpl in E; inversion E; subst.
  - exists v. destruct a0. split; [apply y_ret; [exact Ev|reflexivity]|exact H].
  - destruct (IH _ eq_refl) as (v1 & Y1 & Y2). exists v1. split; [eapply y_tau; eassumption|exact Y2].
  - destruct (IH _ eq_refl) as (v1 & Y1 & Y2). exists v1. split; [eapply y_read; eassumption|exact Y2].
  - destruct (IH _ eq_refl) as (v1 & Y1 & Y2). exists v1. split; [eapply y_write; eassumption|exact Y2].
  - destruct (IH _ eq_refl) as (v1 & Y1 & Y2). exists v1. split; [eapply y_call; eassumption|exact Y2].
Qed.

Lemma yields_call_inv Rd {A} p (k : cmd P T A) v a w :
  yields Rd (Call p k) v a w -> exists v1, yields Rd (body p) v tt v1 /\ yields Rd k v1 a w.
Proof.
  intros H. inversion H; cbn [view] in *; try discriminate.
  match goal with E : HCall _ _ = HCall _ _ |- _ => inversion E; subst end. apply yields_incall_inv. assumption.
Qed.

Lemma yields_ret_inv Rd {A} (a b : A) v w : yields Rd (Ret a) v b w -> b = a /\ w = v.
Proof.
  intros H. inversion H; cbn [view] in *; try discriminate.
  match goal with E : HRet _ = HRet _ |- _ => inversion E; subst end. auto.
Qed.

(** The logic proves there is a result, and its postcondition is about that result. *)
Lemma swp_exact {A} D n Rd Wr (Q : A -> nat -> (Z -> T) -> Prop) c v : (forall i, Wr i -> Rd i) ->
  swp body D n Rd Wr Q c v -> swp body D n Rd Wr (fun a m w => Q a m w /\ yields Rd c v a w) c v.
Proof.
  intro HW. revert c v; induction n as [|n IH]; intros c v H; rewrite swp_eq in H |- *;
    destruct H as [Hd H]; split; try exact Hd; destruct (view c) eqn:E; simpl; try contradiction;
    try (split; [exact H|apply y_ret; [exact E|reflexivity]]).
  - eapply swp_conseq; [exact (IH _ _ H)|]. intros a m w _ [Hq Hy]. split; [exact Hq|]. eapply y_tau; eassumption.
  - destruct H as [H1 H2]; split; auto. eapply swp_conseq; [exact (IH _ _ H2)|]. intros a m w _ [Hq Hy].
    split; [exact Hq|]. eapply y_read; eassumption.
  - destruct H as [H1 H2]; split; auto. eapply swp_conseq; [exact (IH _ _ H2)|]. intros a m w _ [Hq Hy].
    split; [exact Hq|]. eapply y_write; eauto.
  - eapply swp_conseq; [exact (IH _ _ H)|]. intros a m w _ [Hq Hy]. split; [exact Hq|]. eapply y_call; eassumption.
Qed.

Lemma swp_exactly {A} D n Rd (Q : A -> (Z -> T) -> Prop) c v :
  swp body D n Rd Rd (fun a _ w => Q a w) c v -> swp body D n Rd Rd (fun a _ w => Q a w /\ yields Rd c v a w) c v.
Proof. exact (swp_exact D n Rd Rd (fun a _ w => Q a w) c v (fun i h => h)). Qed.

Lemma swp_exactlyR {A} D n Rd (Q : A -> (Z -> T) -> Prop) c v :
  swp body D n Rd (fun _ => False) (fun a _ w => Q a w) c v ->
  swp body D n Rd (fun _ => False) (fun a _ w => Q a w /\ yields Rd c v a w) c v.
Proof. apply (swp_exact D n Rd (fun _ => False) (fun a _ w => Q a w) c v). intros i []. Qed.

Lemma swp_exactlyW {A} D n (Rd Wr : Z -> Prop) (Q : A -> (Z -> T) -> Prop) c v :
  swp body D n Rd Wr (fun a _ w => Q a w) c v -> (forall i, Wr i -> Rd i) ->
  swp body D n Rd Wr (fun a _ w => Q a w /\ yields Rd c v a w) c v.
Proof. intros H HW. exact (swp_exact D n Rd Wr (fun a _ w => Q a w) c v HW H). Qed.

(** The result is a function of the cells accessed; the others stay. *)
Lemma yields_frame Rd {A} (c : cmd P T A) v a w : yields Rd c v a w -> forall i, ~ Rd i -> w i = v i.
Proof.
  intros H. induction H as [c v a w E Hw|c v a w c' E H IH|c v a w i k E Hi H IH|c v a w i x k E Hi H IH|c v a w p k E H IH];
    intros j Hj; [subst; reflexivity|auto|auto| |auto].
  rewrite IH by exact Hj. unfold upd. destruct (Z.eqb_spec j i); [subst; contradiction|reflexivity].
Qed.

Lemma yields_ext Rd {A} (c : cmd P T A) v a w v2 : yields Rd c v a w -> (forall i, Rd i -> v2 i = v i) ->
  exists w2, yields Rd c v2 a w2 /\ forall i, v2 i = v i -> w2 i = w i.
Proof.
  enough (G : yields Rd c v a w -> forall E : Z -> Prop, (forall i, E i -> v2 i = v i) -> (forall i, Rd i -> E i) ->
    exists w2, yields Rd c v2 a w2 /\ forall i, E i -> w2 i = w i).
  { intros H1 H2. apply (G H1 (fun i => v2 i = v i)); auto. }
  intros H E. revert v2.
  induction H as [c v a w V Hw|c v a w c' V H IH|c v a w i k V Hi H IH|c v a w i x k V Hi H IH|c v a w p k V H IH]; intros v2 HE HR.
  - subst w. exists v2. split; [apply y_ret; [exact V|reflexivity]|auto].
  - destruct (IH v2 HE HR) as (w2 & Y & R2). exists w2. split; [eapply y_tau; eassumption|exact R2].
  - destruct (IH v2 HE HR) as (w2 & Y & R2). exists w2.
    split; [eapply y_read; [exact V|exact Hi|rewrite (HE i) by auto; exact Y]|exact R2].
  - destruct (IH (upd v2 i x)) as (w2 & Y & R2); [|exact HR|].
    { intros j Hj. unfold upd. destruct (j =? i); auto. }
    exists w2. split; [eapply y_write; eassumption|exact R2].
  - destruct (IH v2 HE HR) as (w2 & Y & R2). exists w2. split; [eapply y_call; eassumption|exact R2].
Qed.

(** ** Results up to the cells of a range *)

Definition outs {A} (c : cmd P T A) Rd (v : Z -> T) (a : A) (u : Z -> T) : Prop :=
  exists w, yields Rd c v a w /\ forall i, Rd i -> u i = w i.

Lemma outs_local {A} (c : cmd P T A) Rd v a u u' :
  (forall i, Rd i -> u' i = u i) -> outs c Rd v a u -> outs c Rd v a u'.
Proof. intros E (w & Y & H). exists w. split; [exact Y|]. intros i Hi. rewrite E by exact Hi. auto. Qed.

Lemma outs_init {A} (c : cmd P T A) Rd v v2 a u :
  (forall i, Rd i -> v2 i = v i) -> outs c Rd v a u -> outs c Rd v2 a u.
Proof.
  intros E (w & Y & Hu). destruct (yields_ext _ _ _ _ _ v2 Y E) as (w2 & Y2 & R).
  exists w2. split; [exact Y2|]. intros i Hi. rewrite Hu by exact Hi. symmetry. apply R. auto.
Qed.

Lemma outs_fun {A} (c : cmd P T A) Rd v a u a' u' :
  outs c Rd v a u -> outs c Rd v a' u' -> a' = a /\ forall i, Rd i -> u' i = u i.
Proof.
  intros (w & Y & H) (w' & Y' & H'). destruct (yields_fun _ _ _ _ _ _ _ _ Y Y') as [-> ->].
  split; [reflexivity|]. intros i Hi. rewrite H, H' by exact Hi. reflexivity.
Qed.

Lemma outs_yields {A} (c : cmd P T A) Rd v a w : yields Rd c v a w -> outs c Rd v a w.
Proof. intro H. exists w. auto. Qed.

(** One thing after the other: the second one may as well start from any memory that agrees where
    it looks. *)
Lemma outs_seq {A B} (c : cmd P T B) (k : B -> cmd P T A) Rd (R1 R2 : Z -> Prop) v b v1 a u :
  outs c R1 v b v1 -> (forall i, R2 i -> ~ R1 i -> v1 i = v i) ->
  (forall i, R1 i -> Rd i) -> (forall i, R2 i -> Rd i) -> (forall i, Rd i -> R1 i \/ R2 i) ->
  (forall i, R1 i \/ ~ R1 i) -> (forall i, R2 i \/ ~ R2 i) ->
  outs (k b) R2 v1 a u -> (forall i, R1 i -> ~ R2 i -> u i = v1 i) ->
  outs (Bind c k) Rd v a u.
Proof.
  intros (w1 & Y1 & U1) F H1 H2 Hc D1 D2 O Hu.
  assert (E : forall i, R2 i -> w1 i = v1 i).
  { intros i Hi. destruct (D1 i) as [Hi'|Hi']; [symmetry; auto|]. rewrite (F i Hi Hi'). eapply yields_frame; eassumption. }
  destruct (outs_init _ _ _ w1 _ _ E O) as (w2 & Y2 & U2).
  exists w2. split; [eapply yields_bind; [eapply yields_mono; [exact Y1|exact H1]|eapply yields_mono; [exact Y2|exact H2]]|].
  intros i Hi. destruct (D2 i) as [Hi2|Hi2]; [auto|]. destruct (Hc i Hi) as [Hi1|]; [|contradiction].
  rewrite Hu, U1 by assumption. symmetry. eapply yields_frame; eassumption.
Qed.

(** ** Whole calls

    Whatever others do outside [Rg], and to MaxGor within [0,M], [c] is sequential and leaves [w] in
    [Rg] if it returns. *)
(** What is proved total has an outcome. *)
Lemma swp_outcome {A} D n (Rd Wr : Z -> Prop) (Q : A -> nat -> (Z -> T) -> Prop) : forall c v,
  swp body D n Rd Wr Q c v -> exists a m w, Q a m w.
Proof.
  induction n as [|n IH]; intros c v H; rewrite swp_eq in H; destruct H as [_ H]; destruct (view c) eqn:Ev;
    try contradiction; eauto; eapply IH; apply H.
Qed.

Section Settles.
Variables (M : Z) (Rg : Z -> Prop).

Inductive settles {A} (c : cmd P T A) (v : Z -> T) (w : Z -> T) : Prop :=
| s_ret a : view c = HRet a -> (forall i, Rg i -> v i = w i) -> settles c v w
| s_tau c' : view c = HTau c' -> settles c' v w -> settles c v w
| s_read i k : view c = HRead i k -> Rg i -> settles (k (v i)) v w -> settles c v w
| s_write i x k : view c = HWrite i x k -> Rg i -> settles k (upd v i x) w -> settles c v w
| s_call p k : view c = HCall p k -> settles (k (body p)) v w -> settles c v w
| s_max k : view c = HLoadMax k -> (forall mg, 0 <= mg <= M -> settles (k mg) v w) -> settles c v w.

Lemma settles_ext {A} (c : cmd P T A) v w : settles c v w -> forall v', (forall i, Rg i -> v' i = v i) -> settles c v' w.
Proof.
  induction 1 as [c v w a E H|c v w c' E H IH|c v w i k E Hi H IH|c v w i x k E Hi H IH|c v w p k E H IH|c v w k E H IH]; intros v' Hv.
  - eapply s_ret; [exact E|]. intros i Hi. rewrite Hv by exact Hi. auto.
  - eapply s_tau; [exact E|auto].
  - eapply s_read; [exact E|exact Hi|]. rewrite (Hv i Hi). auto.
  - eapply s_write; [exact E|exact Hi|]. apply IH. intros j Hj. unfold upd. destruct (j =? i); auto.
  - eapply s_call; [exact E|auto].
  - eapply s_max; [exact E|]. intros mg Hm. apply IH; auto.
Qed.

Lemma settles_exec {R} (c : cmd P T R) s w k st : settles c (mem s) w -> 0 <= maxg s <= M -> exec body M Rg k (St c [] s) st ->
  exists c' s', st = St c' [] s' /\ 0 <= maxg s' <= M /\ settles c' (mem s') w.
Proof.
  intros Hm Hg Hx. remember (St c [] s) as s0 eqn:E0. revert E0.
  induction Hx as [s0|n s0 s1 s2 Hx IH Hp|n s0 s1 s2 Hx IH He]; intros E0; subst s0.
  - exists c, s. auto.
  - destruct (IH eq_refl) as (c1 & s1' & -> & G1 & M1).
    assert (Hone : forall m' s' fs, exec_local body c1 s1' = Some (m', s', fs) ->
      exists c' s'', St m' ([] ++ fs) s' = St c' [] s'' /\ 0 <= maxg s'' <= M /\ settles c' (mem s'') w).
    { intros m' s' fs Hl. unfold exec_local in Hl. destruct M1 as [a E H|c' E H|i k E Hi H|i x k E Hi H|p k E H|k E H];
        rewrite E in Hl; inversion Hl; subst; eexists _, _; (split; [reflexivity|]); (split; [exact G1|]); auto. }
    inversion Hp as [a b Hi|m ts s' k0 x Ev|m l1 c0 l2 s' k0 x Ev Ea]; subst.
    + inversion Hi; subst; try solve [match goal with H : _ ++ _ :: _ = [] |- _ => symmetry in H; apply app_cons_not_nil in H; destruct H
          | H : [] = _ ++ _ :: _ |- _ => apply app_cons_not_nil in H; destruct H end].
      match goal with H : exec_local _ _ _ = Some _ |- _ => exact (Hone _ _ _ H) end.
    + exfalso. destruct M1 as [a E H|c' E H|i k E Hi H|i y k E Hi H|p k E H|k E H]; rewrite Ev in E; discriminate.
    + match goal with H : _ ++ _ :: _ = [] |- _ => symmetry in H; apply app_cons_not_nil in H; destruct H
          | H : [] = _ ++ _ :: _ |- _ => apply app_cons_not_nil in H; destruct H end.
  - destruct (IH eq_refl) as (c1 & s1' & -> & G1 & M1).
    inversion He as [m ts s' mem' mg' Hmg Hmem]; subst. eexists _, _. split; [reflexivity|]. split; [exact Hmg|].
    cbn [mem]. apply (settles_ext _ _ _ M1). exact Hmem.
Qed.

Lemma settles_returned {R} (c : cmd P T R) s w k st r : settles c (mem s) w -> 0 <= maxg s <= M -> exec body M Rg k (St c [] s) st ->
  returned st r -> forall i, Rg i -> mem (sh st) i = w i.
Proof.
  intros Hm Hg Hx Hr. destruct (settles_exec c s w k st Hm Hg Hx) as (c1 & s1 & -> & G1 & M1).
  unfold returned in Hr. cbn [main sh] in *. destruct M1 as [a E H|c' E H|i k' E Hi H|i y k' E Hi H|p k' E H|k' E H]; try (rewrite Hr in E; discriminate).
  exact H.
Qed.

Lemma settles_view {A} (c d : cmd P T A) v w : view c = view d -> settles c v w -> settles d v w.
Proof.
  intros V H. destruct H as [a E H|c' E H|i k' E Hi H|i y k' E Hi H|p k' E H|k' E H]; rewrite V in E;
    [eapply s_ret|eapply s_tau|eapply s_read|eapply s_write|eapply s_call|eapply s_max]; eassumption.
Qed.

Lemma settles_bind {A B} D (Rd Wr : Z -> Prop) (k : A -> cmd P T B) w n : (forall i, Rd i -> Rg i) -> (forall i, Wr i -> Rg i) ->
  forall (c : cmd P T A) v, swp body D n Rd Wr (fun a _ v' => settles (k a) v' w) c v -> settles (Bind c k) v w.
Proof.
  intros HR HW. induction n as [|n IH]; intros c v H; rewrite swp_eq in H; destruct H as [_ H]; destruct (view c) eqn:Ev; try contradiction;
    try (apply (settles_view (k a)); [cbn [view]; rewrite Ev; reflexivity|exact H]).
  - eapply s_tau; [cbn [view]; rewrite Ev; reflexivity|]. apply IH; exact H.
  - eapply s_read; [cbn [view]; rewrite Ev; reflexivity|apply HR, H|]. apply IH; apply H.
  - eapply s_write; [cbn [view]; rewrite Ev; reflexivity|apply HW, H|]. apply IH; apply H.
  - eapply s_call; [cbn [view]; rewrite Ev; reflexivity|]. apply IH; exact H.
Qed.

Lemma settles_swp {A} D n (Rd Wr : Z -> Prop) (Q : A -> nat -> (Z -> T) -> Prop) w : (forall i, Rd i -> Rg i) -> (forall i, Wr i -> Rg i) ->
  forall (c : cmd P T A) v, swp body D n Rd Wr Q c v -> (forall a m v', Q a m v' -> forall i, Rg i -> v' i = w i) -> settles c v w.
Proof.
  intros HR HW. induction n as [|n IH]; intros c v H HQ; rewrite swp_eq in H; destruct H as [_ H]; destruct (view c) eqn:Ev; try contradiction;
    try (eapply s_ret; [exact Ev|]; eapply HQ; exact H).
  - eapply s_tau; [exact Ev|]. apply IH; [exact H|]. exact HQ.
  - eapply s_read; [exact Ev|apply HR, H|]. apply IH; [apply H|exact HQ].
  - eapply s_write; [exact Ev|apply HW, H|]. apply IH; [apply H|exact HQ].
  - eapply s_call; [exact Ev|]. apply IH; [exact H|exact HQ].
Qed.

End Settles.

End Yields.
