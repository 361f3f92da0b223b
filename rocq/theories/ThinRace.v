(** * Sort, if its reads return anything: a data race

    partOne (sortyLsw.go:88-113) may compare the pivot with itself, and exchanges it if
    that comparison says so, while partTwo (127-160) compares other elements with it. *)

From Coq Require Import List ZArith Lia Bool.
From Verif Require Import Lang Trace HappensBefore Weak Typed Kinds Spec Lsw Calls Guarantee TraceFacts Witness Examples Thin ThinTyped.
Import ListNotations.
Open Scope Z_scope.

Section Adjacent.
Context {P T R : Type}.
Variable body : P -> cmd P T unit.

Lemma hb_next tr i : hb tr i (S i) -> forall ei ej x y wi wj, nth_error tr i = Some ei -> nth_error tr (S i) = Some ej ->
  touches ei x wi -> touches ej y wj -> exists t, doneBy ei t /\ doneBy ej t.
Proof.
  intro H. remember (S i) as j eqn:Ej. destruct H as [i j ai aj t Hij H1 H2 H3 H4|i j t u aj Hij H1 H2 H3|i j t u Hij H1 H2|i j k H1 H2];
    intros ei ej x y wi wj Hi Hj Ti Tj.
  - exists t. split; congruence.
  - exfalso. assert (ei = EvGo t u) by congruence. subst. destruct Ti as [[_ [v E]]|[_ [v E]]]; discriminate.
  - exfalso. assert (ei = EvAtomic t) by congruence. subst. destruct Ti as [[_ [v E]]|[_ [v E]]]; discriminate.
  - exfalso. apply hb_order in H1, H2. lia.
Qed.

(** The caller about to read what a goroutine is about to write: doing both makes a data race. *)
Lemma clash M Rg tr (s0 s : st P T R) i x : texec body M Rg tr s0 s ->
  access (main s) = Some (x, false) -> nth_error (map access (thr s)) i = Some (Some (x, true)) ->
  exists tr' s', texec body M Rg tr' s0 s' /\ dataRace tr'.
Proof.
  intros H Hm Ht. destruct s as [m ts sh]. cbn [main thr] in Hm, Ht.
  rewrite nth_error_map in Ht. destruct (nth_error ts i) as [c|] eqn:Hn; [|discriminate].
  change (Some (access c) = Some (Some (x, true))) in Ht. injection Ht as Ht.
  destruct (nth_error_split ts i Hn) as (l1 & l2 & -> & <-).
  unfold access in Hm, Ht. destruct (view m) as [| | |a k| | | | | | | | |] eqn:Em; try discriminate.
  injection Hm as ->.
  destruct (view c) as [| | | |a v kc| | | | | | | |] eqn:Ec; try discriminate. injection Ht as ->.
  assert (S1 : tstep body (EvRead 0 x) (St m (l1 ++ c :: l2) sh) (St (k (mem sh x)) (l1 ++ c :: l2) sh)).
  { replace (EvRead 0 x) with (Trace.label 0 (length (l1 ++ c :: l2)) m) by (unfold Trace.label; rewrite Em; reflexivity).
    pattern (l1 ++ c :: l2) at 3. rewrite <- (app_nil_r (l1 ++ c :: l2)). apply tstep_main. unfold exec_local. rewrite Em. reflexivity. }
  assert (S2 : exists s2, tstep body (EvWrite (S (length l1)) x) (St (k (mem sh x)) (l1 ++ c :: l2) sh) s2).
  { eexists. replace (EvWrite (S (length l1)) x) with (Trace.label (S (length l1)) (length (l1 ++ c :: l2)) c) by (unfold Trace.label; rewrite Ec; reflexivity).
    apply tstep_thr. unfold exec_local. rewrite Ec. reflexivity. }
  destruct S2 as [s2 S2]. exists ((tr ++ [EvRead 0 x]) ++ [EvWrite (S (length l1)) x]), s2. split.
  - eapply texec_prog; [eapply texec_prog; [exact H|exact S1]|exact S2].
  - assert (N1 : nth_error ((tr ++ [EvRead 0 x]) ++ [EvWrite (S (length l1)) x]) (length tr) = Some (EvRead 0 x)).
    { rewrite <- app_assoc, nth_error_app2, Nat.sub_diag by lia. reflexivity. }
    assert (N2 : nth_error ((tr ++ [EvRead 0 x]) ++ [EvWrite (S (length l1)) x]) (S (length tr)) = Some (EvWrite (S (length l1)) x)).
    { rewrite nth_error_app2; rewrite app_length; cbn [length]; [|lia]. replace (S (length tr) - (length tr + 1))%nat with O by lia. reflexivity. }
    exists (length tr), (S (length tr)), (EvRead 0 x), (EvWrite (S (length l1)) x), x, false, true.
    assert (T1 : touches (EvRead 0 x) x false) by (left; split; [reflexivity|eexists; reflexivity]).
    assert (T2 : touches (EvWrite (S (length l1)) x) x true) by (right; split; [reflexivity|eexists; reflexivity]).
    split; [lia|]. split; [exact N1|]. split; [exact N2|]. split; [exact T1|]. split; [exact T2|]. split; [right; reflexivity|].
    intro Hb. destruct (hb_next _ _ Hb _ _ _ _ _ _ N1 N2 T1 T2) as (t & D1 & D2). cbn in D1, D2. congruence.
Qed.

Fixpoint steps (n : nat) (ch : choice) (s : st P T R) : st P T R :=
  match n with O => s | S n => match run1 body ch s with Some s' => steps n ch s' | None => s end end.

Lemma steps_texec M Rg n ch : forall s, exists tr, texec body M Rg tr s (steps n ch s).
Proof.
  assert (G : forall n tr s0 s, texec body M Rg tr s0 s -> exists tr', texec body M Rg tr' s0 (steps n ch s)).
  { clear n. induction n as [|n IH]; intros tr s0 s H; [exists tr; exact H|]. cbn [steps].
    destruct (run1 body ch s) as [s'|] eqn:E; [|exists tr; exact H].
    apply run1_pstep in E. destruct (pstep_tstep _ _ _ E) as (e & He). eapply IH, texec_prog; [exact H|exact He]. }
  intro s. eapply G. constructor.
Qed.

Definition setMem (m : Z -> T) (s : st P T R) : st P T R := St (main s) (thr s) (Sh m (ngor (sh s)) 3 (chans (sh s))).
Lemma setMem_texec tr s0 s m : texec body 3 (fun _ => False) tr s0 s -> texec body 3 (fun _ => False) tr s0 (setMem m s).
Proof. intro H. destruct s as [c ts h]. eapply texec_env; [exact H|]. apply (env_step 3 _ c ts h m 3); [lia|intros i []]. Qed.
End Adjacent.

Lemma texec_trans {P T R} (body : P -> cmd P T unit) M Rg tr tr' (a b c : st P T R) :
  texec body M Rg tr a b -> texec body M Rg tr' b c -> texec body M Rg (tr ++ tr') a c.
Proof.
  intros H1 H2. induction H2 as [s|tr' e s s1 s2 H2 IH He|tr' s s1 s2 H2 IH He].
  - rewrite app_nil_r. exact H1.
  - rewrite app_assoc. eapply texec_prog; [apply IH; exact H1|exact He].
  - eapply texec_env; [apply IH; exact H1|exact He].
Qed.

(** The caller runs alone, then its first goroutine, with memory [m1], then [m2]. *)
Definition swayed {T} (C : call T) (n0 n1 n2 : nat) (m1 m2 : Z -> T) : st (cP C) T unit :=
  steps (cProcs C) n2 (CThr 0) (setMem m2 (steps (cProcs C) n1 (CThr 0) (setMem m1 (steps (cProcs C) n0 CMain (start (cProg C) (cInit C) 3))))).

Lemma swayed_texec {T} (C : call T) n0 n1 n2 m1 m2 :
  exists tr, texec (cProcs C) 3 (fun _ => False) tr (start (cProg C) (cInit C) 3) (swayed C n0 n1 n2 m1 m2).
Proof.
  unfold swayed. set (a := start (cProg C) (cInit C) 3).
  destruct (steps_texec (cProcs C) 3 (fun _ => False) n0 CMain a) as [t0 H0]. set (b := steps (cProcs C) n0 CMain a) in *.
  apply (setMem_texec (cProcs C) t0 _ _ m1) in H0. set (c := setMem m1 b) in *.
  destruct (steps_texec (cProcs C) 3 (fun _ => False) n1 (CThr 0) c) as [t1 H1]. set (d := steps (cProcs C) n1 (CThr 0) c) in *.
  assert (H2 := texec_trans _ _ _ _ _ _ _ _ H0 H1).
  apply (setMem_texec (cProcs C) (t0 ++ t1) _ _ m2) in H2. set (e := setMem m2 d) in *.
  destruct (steps_texec (cProcs C) 3 (fun _ => False) n2 (CThr 0) e) as [t2 H3].
  exists ((t0 ++ t1) ++ t2). exact (texec_trans _ _ _ _ _ _ _ _ H2 H3).
Qed.

Lemma swayed_races {T} (C : call T) n0 n1 n2 m1 m2 x :
  access (main (swayed C n0 n1 n2 m1 m2)) = Some (x, false) -> nth_error (map access (thr (swayed C n0 n1 n2 m1 m2))) 0 = Some (Some (x, true)) ->
  exists tr s, scrambled C 3 tr s /\ dataRace tr.
Proof.
  intros Hm Ht. destruct (swayed_texec C n0 n1 n2 m1 m2) as [tr H].
  destruct (clash (cProcs C) 3 (fun _ => False) tr _ _ 0 x H Hm Ht) as (tr' & s & H' & Hr).
  exists tr', s. split; [|exact Hr]. exists 3. split; [lia|exact H'].
Qed.

(** The caller is about to compare with the pivot, 30.  The goroutine passes the elements from 16 to 29 and compares 30
    with itself; the second read of it returns something else, and so it is about to exchange it. *)
Theorem scrambled_races : exists tr s, scrambled pCall 3 tr s /\ dataRace tr.
Proof.
  apply (swayed_races pCall 85 47 4 (fun i => if Z.eqb i 43 then (1, 0) else (0, 0)) (fun i => if Z.eqb i 43 then (1, 0) else (-1, 0)) 30);
    vm_compute; reflexivity.
Qed.
