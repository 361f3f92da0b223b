(** * The garbage collector: examples, and the pointer it misses *)

From Coq Require Import List ZArith Lia Bool.
From Verif Require Import Lang Trace Calls Scalar Typed Kinds Spec Lsw Base Witness Examples Collect CollectTop.
Import ListNotations.
Open Scope Z_scope.

Definition retB {P T R} (c : cmd P T R) : bool := match view c with HRet _ => true | _ => false end.

Lemma all_returned {P T} (body : P -> cmd P T unit) (s : st P T unit) :
  retB (main s) = true -> forallb retB (thr s) = true -> forall t v, ~ onStack body s t v.
Proof.
  assert (K : forall c : cmd P T unit, retB c = true -> exists r, view c = HRet r).
  { intros c H. unfold retB in H. destruct (view c); try discriminate. eauto. }
  intros Hm Ht t v. apply returned_holds_nothing; [|apply K; exact Hm].
  intros c Hc. apply K. rewrite forallb_forall in Ht. apply Ht. exact Hc.
Qed.

Lemma marking_rotate b g {T} (C : call T) M s L X N f n : marking b g C M s L X N ->
  exists L', marking b g C M (rotate (cProcs C) f n s) L' X N /\ incl L L' /\ (b = false -> L' = L).
Proof. intro H. destruct (rotate_exec (cProcs C) M (cCells C) f n s) as [k Hk]. eapply marking_exec; eassumption. Qed.

(** ** Strings: half of the slice is scanned amid the sort, the rest after it *)

Definition sMid := rotate (cProcs sCall) (Z.to_nat 500) 0 (start (cProg sCall) (cInit sCall) 3).
Definition sEnd := rotate (cProcs sCall) (Z.to_nat 20000) 0 sMid.

Lemma low_cells x : In x (map Z.of_nat (seq 0 25)) -> cCells sCall x.
Proof. intro Hx. apply in_map_iff in Hx. destruct Hx as (j & <- & Hj). apply in_seq in Hj. change (0 <= Z.of_nat j < 0 + 50). lia. Qed.

Lemma high_cells x : In x (map Z.of_nat (seq 25 25)) -> cCells sCall x.
Proof. intro Hx. apply in_map_iff in Hx. destruct Hx as (j & <- & Hj). apply in_seq in Hj. change (0 <= Z.of_nat j < 0 + 50). lia. Qed.

Lemma upto_in t n : (t <= n)%nat -> In t (rev (seq 0 (S n)) ++ []).
Proof. intro H. apply in_app_iff. left. apply -> in_rev. apply in_seq. lia. Qed.

Lemma unfinished {P T} (s : st P T unit) : isRet s = false -> ~ returned s tt.
Proof. unfold isRet, returned. intros F E. rewrite E in F. discriminate. Qed.

Lemma gor3_ok : 0 <= 3 <= 3.
Proof. lia. Qed.

Lemma ex_s_call : sortCall plat64 tiny sCall.
Proof. apply (call_typed plat64 tiny TS 1 sSlice sMem (proj1 ex_s_typed)). left. reflexivity. Qed.

Lemma ex_strings_marked : exists L X N, marking true true sCall 3 sEnd L X N /\ ended sCall sEnd X N /\
  returned sEnd tt /\ (2 <= length (thr sMid))%nat /\ ~ returned sMid tt /\
  contents (mem (sh sMid)) sSlice <> contents (mem (sh sEnd)) sSlice.
Proof.
  assert (HR0 : exists k, reach sCall 3 k sMid) by (exact (rotate_reach sCall 3 3 (Z.to_nat 500) 0 gor3_ok)).
  destruct HR0 as [k HR].
  assert (H0 := marking_begins true true sCall 3 k sMid HR).
  assert (H1 := marking_cells _ _ sCall 3 sMid _ _ _ (map Z.of_nat (seq 0 25)) H0 low_cells).
  assert (H2 : exists L, marking true true sCall 3 sEnd L (rev (map Z.of_nat (seq 0 25)) ++ []) []).
  { destruct (marking_rotate _ _ sCall 3 sMid _ _ _ (Z.to_nat 20000) 0 H1) as (L & H2 & _). exists L. exact H2. }
  destruct H2 as [L H2].
  assert (H3 := marking_cells _ _ sCall 3 sEnd _ _ _ (map Z.of_nat (seq 25 25)) H2 high_cells).
  assert (H4 := marking_stacks _ _ sCall 3 sEnd _ _ _ (S (length (thr sEnd))) H3
    (all_returned _ sEnd ltac:(vm_compute; reflexivity) ltac:(vm_compute; reflexivity)) (le_n _)).
  eexists _, _, _. split; [exact H4|]. split; [split|split; [|split; [|split]]].
  - intros x Hx. change (0 <= x < 0 + 50) in Hx. apply in_app_iff. destruct (Z.lt_ge_cases x 25) as [D|D].
    + right. apply in_app_iff. left. apply -> in_rev. apply in_map_iff. exists (Z.to_nat x). split; [lia|apply in_seq; lia].
    + left. apply -> in_rev. apply in_map_iff. exists (Z.to_nat x). split; [lia|apply in_seq; lia].
  - exact (fun t Ht => upto_in t _ Ht).
  - apply isRet_returned; vm_compute; reflexivity.
  - apply Nat.leb_le; vm_compute; reflexivity.
  - apply (unfinished sMid). vm_compute. reflexivity.
  - intro E. assert (F : map sptr (contents (mem (sh sMid)) sSlice) = map sptr (contents (mem (sh sEnd)) sSlice)) by (rewrite E; reflexivity).
    vm_compute in F. discriminate.
Qed.

(** ** Two pointers, 100 and 200, the larger first *)

Definition ptrMem : Z -> elem TU8 := memOf 0 0 [200; 100].
Definition ptrSlice : slice := Slice 0 2.
Definition ptrCall : call (elem TU8) := typedCall plat64 shipped 1 TU8 ptrSlice ptrMem.
Definition ptrAt (n : nat) := drive (cProcs ptrCall) n (start (cProg ptrCall) (cInit ptrCall) 1).

Lemma ptr_typed : typedSlice plat64 TU8 ptrMem ptrSlice.
Proof.
  apply (@typed_by TU8 ptrMem ptrSlice (inRange 64)); [simpl; lia|intros x H; apply inRange_spec in H; exact H|vm_compute; reflexivity].
Qed.

(** While slc[1] = slc[0] has been done and slc[0] = 100 has not, 100 is in no cell. *)
Lemma ptr_nowhere : exists k, reach ptrCall 1 k (ptrAt 5) /\ contents (mem (sh (ptrAt 5))) ptrSlice = [200; 200].
Proof. destruct (drive_reach ptrCall 1 1 5 ltac:(lia)) as [k H]. exists k. split; [exact H|vm_compute; reflexivity]. Qed.

(** The cells are scanned then, the stack when the call has returned. *)
Lemma ptr_missed : marking false true ptrCall 1 (drive (cProcs ptrCall) 20 (ptrAt 5)) [200; 200] [1; 0] [0%nat] /\
  ended ptrCall (drive (cProcs ptrCall) 20 (ptrAt 5)) [1; 0] [0%nat] /\
  returned (drive (cProcs ptrCall) 20 (ptrAt 5)) tt /\
  contents (mem (sh (drive (cProcs ptrCall) 20 (ptrAt 5)))) ptrSlice = [100; 200].
Proof.
  destruct ptr_nowhere as (k & HR & _).
  assert (H1 := marking_cells false true ptrCall 1 (ptrAt 5) _ _ _ [0; 1] (marking_begins false true ptrCall 1 k _ HR)
    ltac:(intros x [<-|[<-|[]]]; cbn; unfold cellsOf; cbn; lia)).
  assert (E : rev (map (mem (sh (ptrAt 5))) [0; 1]) ++ [] = [200; 200]) by (vm_compute; reflexivity). rewrite E in H1.
  destruct (drive_exec (cProcs ptrCall) 1 (cCells ptrCall) 20 (ptrAt 5)) as [j Hj].
  destruct (marking_exec _ _ ptrCall 1 _ _ _ _ j _ H1 Hj) as (L & H2 & _ & HL). rewrite (HL eq_refl) in H2.
  assert (H3 := marking_stacks _ _ ptrCall 1 _ _ _ _ 1%nat H2
    (all_returned (cProcs ptrCall) (drive (cProcs ptrCall) 20 (ptrAt 5)) ltac:(vm_compute; reflexivity) ltac:(vm_compute; reflexivity)) ltac:(lia)).
  split; [exact H3|]. split; [split|split].
  - intros x Hx. cbn in Hx. unfold cellsOf in Hx. cbn in Hx. assert (x = 0 \/ x = 1) as [->| ->] by lia; cbn; auto.
  - assert (F : length (thr (drive (cProcs ptrCall) 20 (ptrAt 5))) = O) by (vm_compute; reflexivity).
    rewrite F. intros t Ht. left. lia.
  - apply isRet_returned; vm_compute; reflexivity.
  - vm_compute. reflexivity.
Qed.

Lemma is_in (l : list Z) : l = [100; 200] -> In 100 l.
Proof. intros ->. left. reflexivity. Qed.

Lemma not_in (l : list Z) : l = [200; 200] -> ~ In 100 l.
Proof. intros -> [F|[F|[]]]; discriminate. Qed.

Theorem pointer_missed : exists pl tn opt e (s : slice) (m0 : Z -> elem e) M st L X N v,
  platOk pl /\ tuningOk pl tn /\ dispatchSlice (wb pl) (RSlice rPointer) = Some e /\ typedSlice pl e m0 s /\
  marking false true (typedCall pl tn opt e s m0) M st L X N /\ ended (typedCall pl tn opt e s m0) st X N /\
  returned st tt /\ In v (contents m0 s) /\ In v (contents (mem (sh st)) s) /\ ~ In v L.
Proof.
  exists plat64, shipped, 1, TU8, ptrSlice, ptrMem, 1, (drive (cProcs ptrCall) 20 (ptrAt 5)), [200; 200], [1; 0], [0%nat], 100.
  destruct ptr_missed as (A & B & D & E).
  split; [exact plat64_ok|]. split; [split; cbn; lia|]. split; [reflexivity|]. split; [exact ptr_typed|].
  split; [exact A|]. split; [exact B|]. split; [exact D|]. split; [right; left; reflexivity|].
  split; [exact (is_in _ E)|]. intros [F|[F|[]]]; discriminate.
Qed.

(** Even if the world stops for all of the marking: what is in the cells is not all that is needed. *)
Theorem pointer_nowhere : exists pl tn opt e (s : slice) (m0 : Z -> elem e) M k st v,
  platOk pl /\ tuningOk pl tn /\ dispatchSlice (wb pl) (RSlice rPointer) = Some e /\ typedSlice pl e m0 s /\
  reach (typedCall pl tn opt e s m0) M k st /\ In v (contents m0 s) /\ ~ In v (contents (mem (sh st)) s).
Proof.
  destruct ptr_nowhere as (k & HR & E). exists plat64, shipped, 1, TU8, ptrSlice, ptrMem, 1, k, (ptrAt 5), 100.
  split; [exact plat64_ok|]. split; [split; cbn; lia|]. split; [reflexivity|]. split; [exact ptr_typed|].
  split; [exact HR|]. split; [right; left; reflexivity|].
  exact (not_in _ E).
Qed.
