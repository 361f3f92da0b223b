(** * Concrete runs of the checkers while elements are changed *)

From Coq Require Import List ZArith Lia Bool Sorted.
From Verif Require Import Lang Scalar Typed Kinds Spec Lsw Calls Witness Examples Watch.
Import ListNotations.
Open Scope Z_scope.

Section Alone.
Context {P T R : Type}.
Variable body : P -> cmd P T unit.

(** At most [n] steps of a lone goroutine; all states passed. *)
Fixpoint alone (n : nat) (s : st P T R) (l : list (st P T R)) : st P T R * list (st P T R) :=
  match n with
  | O => (s, l)
  | S n' =>
    match exec_local body (main s) (sh s) with
    | Some (c, w, []) => let s' := St c [] w in alone n' s' (s' :: l)
    | _ => (s, l)
    end
  end.

Lemma alone_watched M s0 n : forall k s l, watched body M k l s0 s -> thr s = [] ->
  exists k', watched body M k' (snd (alone n s l)) s0 (fst (alone n s l)) /\ thr (fst (alone n s l)) = [].
Proof.
  induction n as [|n IH]; intros k s l H Ht; cbn [alone]; [exists k; split; [exact H|exact Ht]|].
  destruct (exec_local body (main s) (sh s)) as [[[c w] [|]]|] eqn:E; try (exists k; split; [exact H|exact Ht]).
  apply (IH (S k)); [|reflexivity]. eapply w_prog; [exact H|]. destruct s as [m ts w0]. cbn [main thr sh] in *. subst ts.
  apply step_now. exact (step_main body m [] w0 c w [] E).
Qed.

(** [n] steps, then somebody replaces all elements, then [n'] steps. *)
Lemma replaced (c : cmd P T R) m0 m1 mg M n n' : 0 <= mg <= M ->
  let '(s, l) := alone n (start c m0 mg) [start c m0 mg] in
  let s1 := St (main s) [] (Sh m1 (ngor (sh s)) mg (chans (sh s))) in
  exists k, watched body M k (snd (alone n' s1 (s1 :: l))) (start c m0 mg) (fst (alone n' s1 (s1 :: l))).
Proof.
  intro Hm. destruct (alone_watched M (start c m0 mg) n O (start c m0 mg) [start c m0 mg] (w_start body M _) eq_refl) as (k & H & Ht).
  destruct (alone n (start c m0 mg) [start c m0 mg]) as [s l] eqn:E. cbn [fst snd] in *. cbv zeta.
  set (s1 := St _ _ _). assert (H1 : watched body M k (s1 :: l) (start c m0 mg) s1).
  { eapply w_env; [exact H|]. destruct s as [m ts w]. cbn [thr main sh] in *. subst ts. apply env_step; [exact Hm|intros i []]. }
  destruct (alone_watched M (start c m0 mg) n' k s1 (s1 :: l) H1 eq_refl) as (k' & H2 & _). exists k'. exact H2.
Qed.
End Alone.

Definition disordered (w : Z -> Z) : bool := (w 1 <? w 0) || (w 2 <? w 1).
Lemma disordered_spec (w : Z -> Z) : disordered w = true -> ~ StronglySorted (le TU8) (contents w (Slice 0 3)).
Proof.
  unfold disordered. intros E H. cbn in H. inversion H as [|? ? H1 H2]; subst. inversion H1 as [|? ? H3 H4]; subst.
  inversion H2 as [|? ? A1 A2]; subst. inversion H4 as [|? ? B1 B2]; subst. cbn in A1, B1.
  apply orb_true_iff in E. destruct E as [E|E]; apply Z.ltb_lt in E; lia.
Qed.

Definition small (w : Z -> Z) : bool := forallb (fun i => (0 <=? w i) && (w i <? 2 ^ 64)) [0; 1; 2].
Lemma small_typed (w : Z -> Z) : small w = true -> typedSlice plat64 TU8 w (Slice 0 3).
Proof.
  intro H. split; [split; [cbn; lia|vm_compute; reflexivity]|]. unfold small in H. rewrite forallb_forall in H.
  change (contents (T := elem TU8) w (Slice 0 3)) with (map w [0; 1; 2]). apply Forall_map, Forall_forall. intros i Hi. apply H in Hi.
  apply andb_true_iff in Hi. destruct Hi as [A B]. apply Z.leb_le in A. apply Z.ltb_lt in B. cbn. lia.
Qed.

(** [5;1;2], of which somebody makes [1;5;2] half way: not sorted at any moment, yet found sorted. *)
Lemma never_sorted : exists k L st,
  watched (procs plat64 tiny TU8) 1 k L (start (checkProg plat64 1 TU8 (Slice 0 3)) (memOf 0 0 [5; 1; 2]) 1) st /\
  returned st 0 /\ forall s1, In s1 L -> typedSlice plat64 TU8 (mem (sh s1)) (Slice 0 3) /\
    ~ StronglySorted (le TU8) (contents (mem (sh s1)) (Slice 0 3)).
Proof.
  assert (H := replaced (procs plat64 tiny TU8) (checkProg plat64 1 TU8 (Slice 0 3)) (memOf 0 0 [5; 1; 2]) (memOf 0 0 [1; 5; 2]) 1 1 4 20 ltac:(lia)).
  destruct (alone _ 4 _ _) as [s l] eqn:E. destruct H as [k H].
  eexists k, _, _. split; [exact H|]. clear H.
  assert (G : forall (st : Lang.st (proc (keyT TU8)) Z Z) (L : list (Lang.st (proc (keyT TU8)) Z Z)), isRetZ st 0 && forallb (fun s => small (mem (sh s)) && disordered (mem (sh s))) L = true ->
    returned st 0 /\ forall s1, In s1 L -> typedSlice plat64 TU8 (mem (sh s1)) (Slice 0 3) /\ ~ StronglySorted (le TU8) (contents (mem (sh s1)) (Slice 0 3))).
  { intros st L H. apply andb_true_iff in H. destruct H as [H1 H2]. split; [apply isRetZ_returned; exact H1|]. intros s1 Hin.
    rewrite forallb_forall in H2. specialize (H2 s1 Hin). apply andb_true_iff in H2. destruct H2 as [A B].
    split; [apply small_typed; exact A|apply disordered_spec; exact B]. }
  apply G. injection E as <- <-. vm_compute. reflexivity.
Qed.

Lemma never_sorted_lesswap : exists k L st,
  watched (@noProcs lproc Z) 1 k L (start (lswIsSorted (Wd := pword plat64) Z.ltb 3 3) (memOf 0 0 [5; 1; 2]) 1) st /\
  returned st 0 /\ forall s1, In s1 L -> ~ forall i, 0 < i < 3 -> (mem (sh s1) i <? mem (sh s1) (i - 1)) = false.
Proof.
  assert (H := replaced (@noProcs lproc Z) (lswIsSorted (Wd := pword plat64) Z.ltb 3 3) (memOf 0 0 [5; 1; 2]) (memOf 0 0 [1; 5; 2]) 1 1 4 20 ltac:(lia)).
  destruct (alone _ 4 _ _) as [s l] eqn:E. destruct H as [k H].
  eexists k, _, _. split; [exact H|]. clear H.
  assert (G : forall (st : Lang.st lproc Z Z) (L : list (Lang.st lproc Z Z)), isRetZ st 0 && forallb (fun s => disordered (mem (sh s))) L = true ->
    returned st 0 /\ forall s1, In s1 L -> ~ forall i, 0 < i < 3 -> (mem (sh s1) i <? mem (sh s1) (i - 1)) = false).
  { intros st L H. apply andb_true_iff in H. destruct H as [H1 H2]. split; [apply isRetZ_returned; exact H1|]. intros s1 Hin Hf.
    rewrite forallb_forall in H2. specialize (H2 s1 Hin). unfold disordered in H2. assert (A := Hf 1 ltac:(lia)). assert (B := Hf 2 ltac:(lia)).
    change (1 - 1) with 0 in A. change (2 - 1) with 1 in B. rewrite A, B in H2. discriminate. }
  apply G. injection E as <- <-. vm_compute. reflexivity.
Qed.

Lemma three_ok : goSlice plat64 (Slice 0 3) /\ - intSize plat64 < 3 < intSize plat64.
Proof. unfold goSlice. split; (split; vm_compute; congruence). Qed.
