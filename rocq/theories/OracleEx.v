(** * Concrete runs of Sort with a meaningless Lesswap, or elements changed meanwhile *)

From Coq Require Import List ZArith Lia Bool Permutation Sorted.
From Verif Require Import Lang Scalar Typed Spec Lsw Calls Witness Refute Examples Oracle.
Import ListNotations.
Open Scope Z_scope.

(** 60 elements, a Lesswap that always finds them less (and exchanges). *)
Definition yesCall : call Z := lswCall plat64 tiny (fun _ _ => true) 60 60 (fun i => i).

Lemma yes_run : exists k st, disturbed yesCall 3 k st /\ returned st tt /\ (1 <= length (thr st))%nat.
Proof.
  destruct (rotate_reach yesCall 3 3 (Z.to_nat 30000) 0 ltac:(lia)) as [k H].
  eexists k, _; split; [exact (reach_disturbed _ _ _ _ H)|]. split; [apply isRet_returned; vm_compute; reflexivity|].
  apply Nat.leb_le. vm_compute. reflexivity.
Qed.

(** 60 numbers in a proper order; when the call is under way, someone replaces them all. *)
Definition midCall : call Z := lswCall plat64 tiny Z.ltb 60 60 (fun i => (i * 37) mod 60).

Lemma change {T} (C : call T) M mg (f : nat) n m' f' n' : 0 <= mg <= M ->
  exists k, disturbed C M k (rotate (cProcs C) f' n' (let s := rotate (cProcs C) f n (start (cProg C) (cInit C) mg) in
    St (main s) (thr s) (Sh m' (ngor (sh s)) mg (chans (sh s))))).
Proof.
  intro Hm. destruct (rotate_exec (cProcs C) M (fun _ => False) f n (start (cProg C) (cInit C) mg)) as [k1 H1].
  cbv zeta. revert H1. generalize (rotate (cProcs C) f n (start (cProg C) (cInit C) mg)). intros s1 H1.
  destruct (rotate_exec (cProcs C) M (fun _ => False) f' n' (St (main s1) (thr s1) (Sh m' (ngor (sh s1)) mg (chans (sh s1))))) as [k2 H2].
  exists (k2 + k1)%nat, mg. split; [exact Hm|]. eapply exec_trans; [|exact H2]. eapply exec_env; [exact H1|].
  destruct s1 as [m ts s]. apply env_step; [exact Hm|intros i []].
Qed.

Lemma mid_run : exists k st, disturbed midCall 3 k st /\ returned st tt /\ (1 <= length (thr st))%nat /\
  let l := contents (mem (sh st)) (Slice 0 60) in
  ~ StronglySorted (fun x y => Z.ltb y x = false) l /\ ~ Permutation l (contents (cInit midCall) (Slice 0 60)).
Proof.
  destruct (change midCall 3 3 (Z.to_nat 600) 0 (fun i => (i * 7) mod 13) (Z.to_nat 30000) 0 ltac:(lia)) as [k H].
  eexists k, _. split; [exact H|]. clear H.
  split; [apply isRet_returned; vm_compute; reflexivity|]. split; [apply Nat.leb_le; vm_compute; reflexivity|].
  cbv zeta. split.
  - intro S.
    assert (G : forall l, StronglySorted (fun x y => Z.ltb y x = false) l ->
      (fix go (l : list Z) := match l with x :: (y :: _) as t => negb (y <? x) && go t | _ => true end) l = true).
    { induction 1 as [|x [|y l] Hs IH Hf]; [reflexivity|reflexivity|]. inversion Hf as [|? ? E Hr]; subst. rewrite E. exact IH. }
    apply G in S. vm_compute in S. discriminate.
  - intro H.
    assert (E : forall l l', Permutation l l' -> fold_right Z.add 0 l = fold_right Z.add 0 l').
    { induction 1; cbn [fold_right]; lia. }
    apply E in H. vm_compute in H. discriminate.
Qed.

Lemma race_run : exists k st, disturbed leCall2 2 k st /\ race st.
Proof. destruct le_race as (k & s & H & R). exists k, s. split; [exact (reach_disturbed _ _ _ _ H)|exact R]. Qed.
