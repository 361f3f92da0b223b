(** * Strings and byte slices that look alike

    SortSlice on []string and [][]byte sees their contents, SortLen their lengths, and nothing else (sortyS.go, sortyB.go,
    sortyLenS.go, sortyLenB.go). *)

From Coq Require Import List ZArith Lia Bool Permutation.
From Verif Require Import Lang Scalar Kinds Typed Trace Spec Calls Guarantee TopFacts TraceFacts Alike.
Import ListNotations.
Open Scope Z_scope.
Open Scope cmd_scope.

(** ** Specification *)

(** What is looked at: the contents (SortSlice), or only the length (SortLen). *)
Definition looksAlike (e1 e2 : ety) : elem e1 -> elem e2 -> Prop :=
  match e1, e2 return elem e1 -> elem e2 -> Prop with
  | TS, TS => fun x y => sbytes x = sbytes y
  | TS, TB => fun x y => sbytes x = bbytes y
  | TB, TS => fun x y => bbytes x = sbytes y
  | TB, TB => fun x y => bbytes x = bbytes y
  | TLenS, TLenS => fun x y => length (sbytes x) = length (sbytes y)
  | TLenS, TLenB => fun x y => Z.of_nat (length (sbytes x)) = alen y
  | TLenB, TLenS => fun x y => alen x = Z.of_nat (length (sbytes y))
  | TLenB, TLenB => fun x y => alen x = alen y
  | _, _ => fun _ _ => False
  end.

(** Both are to be sorted by contents, or both by length. *)
Definition sameWay (e1 e2 : ety) : Prop :=
  In e1 [TS; TB] /\ In e2 [TS; TB] \/ In e1 [TLenS; TLenB] /\ In e2 [TLenS; TLenB].

(** Cell [i] holds what was at [f i], in both. *)
Definition movedAlike {P1 P2 T1 T2} (f : Z -> Z) (m1 : Z -> T1) (m2 : Z -> T2) (s : slice) (s1 : st P1 T1 unit) (s2 : st P2 T2 unit) : Prop :=
  forall i, cellsOf s i -> cellsOf s (f i) /\ mem (sh s1) i = m1 (f i) /\ mem (sh s2) i = m2 (f i).

(** ** Proofs *)

Section Kinds.
Context {Wd : word}.
Context {T1 T2 K : Type}.
Variables (key1 : T1 -> K) (key2 : T2 -> K) (lt le : K -> K -> bool) (me : K -> K -> K) (ev f0 : bool).
Variable V : T1 -> T2 -> Prop.
Hypothesis HV : forall x y, V x y -> key1 x = key2 y.
Variables (tn : tuning) (meanI : Z -> Z -> Z).

Let kd1 := Kind key1 lt le me ev f0.
Let kd2 := Kind key2 lt le me ev f0.
Let P := proc K.

Notation "a ~~ b" := (csim (P := P) V eq a b) (at level 70).

Lemma k_get s i : csim (P := P) V V (sget s i) (sget s i).
Proof. unfold sget. destruct (_ && _); constructor. intros v v' H. constructor. exact H. Qed.

Lemma k_set s i v v' : V v v' -> sset s i v ~~ sset s i v'.
Proof. intro H. unfold sset. destruct (_ && _); [|constructor]. constructor; [exact H|]. constructor. reflexivity. Qed.

Lemma k_bind {A B1 B2} (c : cmd P T1 A) (c' : cmd P T2 A) (k : A -> cmd P T1 B1) (k' : A -> cmd P T2 B2) RB : c ~~ c' ->
  (forall a, csim V RB (k a) (k' a)) -> csim V RB (Bind c k) (Bind c' k').
Proof. intros H Hk. eapply cs_bind; [exact H|]. intros b b' <-. apply Hk. Qed.

Lemma k_read {B1 B2} s i (k : T1 -> cmd P T1 B1) (k' : T2 -> cmd P T2 B2) RB : (forall x y, V x y -> key1 x = key2 y -> csim V RB (k x) (k' y)) ->
  csim V RB (Bind (sget s i) k) (Bind (sget s i) k').
Proof. intro H. eapply cs_bind; [apply k_get|]. intros x y Hxy. apply H; [exact Hxy|apply HV; exact Hxy]. Qed.

Lemma k_if {A1 A2} (b : bool) (c1 c2 : cmd P T1 A1) (c1' c2' : cmd P T2 A2) RA : csim V RA c1 c1' -> csim V RA c2 c2' ->
  csim V RA (if b then c1 else c2) (if b then c1' else c2').
Proof. destruct b; auto. Qed.

Lemma k_ret {A} (a : A) : (Ret a : cmd P T1 A) ~~ Ret a.
Proof. constructor. reflexivity. Qed.
Lemma k_goto {S A1 A2} (s : S) (RA : A1 -> A2 -> Prop) : csim (P := P) V (sumR RA) (Ret (inl s)) (Ret (inl s)).
Proof. constructor. reflexivity. Qed.
Lemma k_done {S A} (a : A) : csim (P := P) V (@sumR S _ _ (@eq A)) (Ret (inr a)) (Ret (inr a)).
Proof. constructor. reflexivity. Qed.
Lemma k_swap s l h : sswap s l h ~~ sswap s l h.
Proof.
  unfold sswap. apply k_read. intros x x' Hx _. apply k_read. intros y y' Hy _. apply k_bind; [apply k_set; exact Hx|intros _; apply k_set; exact Hy].
Qed.
Lemma k_reslice s l h : (reslice s l h : cmd P T1 slice) ~~ reslice s l h.
Proof. unfold reslice. destruct (_ && _); constructor. reflexivity. Qed.

Ltac sim := repeat first
  [ progress cbn [key ltb leb mean even fc kd1 kd2]
  | apply k_ret | apply k_goto | apply k_done | apply k_swap | apply k_reslice | apply cs_panic
  | match goal with E : key1 ?x = key2 ?y |- context [key1 ?x] => rewrite E end
  | apply k_read; intros ? ? ? ? | apply k_if | apply k_bind; [|intros ?] | apply cs_loop; intros ?
  | apply cs_call | apply cs_fork | apply cs_max; intros ? | apply cs_gor; intros ? | apply cs_add; intros ? | apply cs_sv | apply cs_send | apply cs_recv; intros ?
  | match goal with |- csim _ _ (let _ := _ in _) _ => cbv zeta end
  | match goal with |- csim _ _ (match ?x with _ => _ end) _ => is_var x; destruct x end ].

Lemma k_insertion s : insertion (ltT kd1) s ~~ insertion (ltT kd2) s.
Proof.
  unfold insertion. apply cs_loop. intros h. apply k_if; [|sim]. apply k_read. intros x x' Hx Ex.
  apply k_bind.
  - apply cs_loop. intros l. apply k_read. intros y y' Hy Ey. unfold ltT. cbn [key ltb kd1 kd2]. rewrite Ex, Ey. apply k_if; [|sim].
    apply k_bind; [apply k_set; exact Hy|intros _]. sim.
  - intros [l|]; [|sim]. apply k_bind; [apply k_set; exact Hx|intros _]. sim.
Qed.

Lemma k_samples s n first step : samples kd1 s n first step ~~ samples kd2 s n first step.
Proof. unfold samples. apply cs_loop. intros [[i f] acc]. sim. Qed.

Lemma k_pivot s n : pivot kd1 s n ~~ pivot kd2 s n.
Proof.
  unfold pivot. destruct (minMaxSample _ _) as [[first step] last]. apply k_bind; [apply k_samples|intros smp]. cbn [ltb kd1 kd2].
  apply cs_local. intros l. cbv zeta. cbn [even mean]. apply k_if.
  - destruct (lget l _); [|constructor]. destruct (lget l _); sim.
  - destruct (lget l _); sim.
Qed.

Lemma k_partOne s pv : partOne kd1 s pv ~~ partOne kd2 s pv.
Proof. unfold partOne. apply cs_loop. intros [l h|l h|l h|l h|l h|l h]; sim. Qed.

Lemma k_partTwo s l h pv : partTwo kd1 s l h pv ~~ partTwo kd2 s l h pv.
Proof. unfold partTwo. cbv zeta. apply k_if; [sim|]. apply cs_loop. intros [l' h'|l' h'|l' h'|l' h'|l' h'|l' h']; sim. Qed.

Lemma k_gapLow s pv r k : gapLow kd1 s pv r k ~~ gapLow kd2 s pv r k.
Proof. unfold gapLow. apply cs_loop. intros [r' k']. sim. Qed.
Lemma k_gapHigh s pv r k : gapHigh kd1 s pv r k ~~ gapHigh kd2 s pv r k.
Proof. unfold gapHigh. apply cs_loop. intros [r' k']. sim. Qed.

Lemma k_partCon s : partCon kd1 meanI s ~~ partCon kd2 meanI s.
Proof.
  unfold partCon. apply k_bind; [apply k_pivot|intros pv]. cbv zeta. apply k_bind; [apply k_reslice|intros p]. apply cs_fork.
  apply k_bind; [apply k_partTwo|intros r]. apply cs_recv. intros z. apply k_if; [apply k_gapLow|apply k_gapHigh].
Qed.

Lemma k_split s k : (split s k : cmd P T1 _) ~~ split s k.
Proof. unfold split. sim. Qed.

Lemma k_pivotShort s : pivotShort kd1 s ~~ pivotShort kd2 s.
Proof.
  unfold pivotShort. cbn [even kd1 kd2]. apply k_if.
  - destruct (minMaxFour _) as [first step]. do 4 (apply k_read; intros ? ? ? E; cbn [key kd1 kd2]; rewrite ?E; clear E).
    cbv zeta. cbn [ltb mean kd1 kd2]. destruct (lt _ _), (lt _ _); apply k_ret.
  - destruct (minMaxSample _ _) as [[first step] last]. do 3 (apply k_read; intros ? ? ? E; cbn [key kd1 kd2]; rewrite ?E; clear E).
    cbv zeta. cbn [ltb mean kd1 kd2]. destruct (lt _ _); apply k_ret.
Qed.

Lemma k_gorFull : (gorFull : cmd P T1 bool) ~~ gorFull.
Proof. unfold gorFull. sim. Qed.

Lemma k_short s : short kd1 tn s ~~ short kd2 tn s.
Proof.
  unfold short. apply cs_loop. intros [ar|[ar aq]].
  - apply k_bind; [apply k_pivotShort|intros pv]. apply k_bind; [apply k_partOne|intros k]. apply k_bind; [apply k_split|intros [aq ar']]. sim.
  - apply k_bind; [apply k_insertion|intros _]. sim.
Qed.

Lemma k_long s sv : long kd1 tn s sv ~~ long kd2 tn s sv.
Proof.
  unfold long. apply cs_loop. intros ar.
  apply k_bind; [apply k_pivot|intros pv]. apply k_bind; [apply k_partOne|intros k]. apply k_bind; [apply k_split|intros [aq ar']].
  cbn [fc kd1 kd2]. apply k_if.
  - apply k_bind; [|intros _; sim]. apply k_if; [sim|apply k_insertion].
  - apply k_bind; [apply k_if; [apply k_gorFull|sim]|intros full]. sim.
Qed.

Lemma k_body p : body kd1 tn p ~~ body kd2 tn p.
Proof.
  destruct p as [s|s sv|s|s pv]; cbn [body]; [apply k_short|apply k_long| |].
  - unfold gLong. sim.
  - unfold gPartOne. apply k_bind; [apply k_partOne|intros k]. sim.
Qed.

Lemma k_sort s : sort kd1 tn meanI s ~~ sort kd2 tn meanI s.
Proof.
  unfold sort. cbn [fc kd1 kd2]. apply k_bind; [unfold minConc; sim|intros single]. apply k_if; [apply k_if; [sim|apply k_if; [sim|apply k_insertion]]|].
  unfold sortConc. apply cs_sv. apply k_bind.
  - apply cs_loop. intros ar. apply k_bind; [apply k_partCon|intros k]. apply k_bind; [apply k_split|intros [aq ar']]. cbn [fc kd1 kd2].
    apply k_bind; [apply k_if; [sim|apply k_if; [sim|apply k_insertion]]|intros _]. unfold minConc. cbn [fc kd1 kd2]. apply k_if; [sim|].
    apply k_bind; [apply k_gorFull|intros full]. sim.
  - intros ar. sim.
Qed.
End Kinds.

Section Calls.
Context {Wd : word}.
Context {T1 T2 K : Type}.
Variables (key1 : T1 -> K) (key2 : T2 -> K) (lt le : K -> K -> bool) (me : K -> K -> K) (ev f0 : bool) (tn : tuning) (meanI : Z -> Z -> Z).
Variables (s : slice) (m1 : Z -> T1) (m2 : Z -> T2).
Hypothesis Hk : forall i, cellsOf s i -> key1 (m1 i) = key2 (m2 i).

Let kd1 := Kind key1 lt le me ev f0.
Let kd2 := Kind key2 lt le me ev f0.

Definition linked {P} (s1 : st P T1 unit) (s2 : st P T2 unit) : Prop :=
  (forall i, cellsOf s i -> exists j, cellsOf s j /\ mem (sh s1) i = m1 j /\ mem (sh s2) i = m2 j) /\
  accesses s1 = accesses s2 /\ ngor (sh s1) = ngor (sh s2) /\ maxg (sh s1) = maxg (sh s2) /\ (returned s1 tt <-> returned s2 tt).

Lemma pair_sim mg M tr s1 :
  (forall k t, exec (body kd2 tn) M (cellsOf s) k (start (sort kd2 tn meanI s) m2 mg) t ->
     forall x w, In (Some (x, w)) (accesses t) -> cellsOf s x) ->
  texec (body kd1 tn) M (cellsOf s) tr (start (sort kd1 tn meanI s) m1 mg) s1 ->
  exists s2, texec (body kd2 tn) M (cellsOf s) tr (start (sort kd2 tn meanI s) m2 mg) s2 /\ linked s1 s2.
Proof.
  intros Hb H. set (V := fun x y => exists j, cellsOf s j /\ x = m1 j /\ y = m2 j).
  assert (HV : forall x y, V x y -> key1 x = key2 y) by (intros x y (j & Hj & -> & ->); apply Hk; exact Hj).
  destruct (texec_simr (R := unit) V (body kd1 tn) (body kd2 tn)) with (Rg := cellsOf s) (M := M) (tr := tr)
    (s0 := start (sort kd1 tn meanI s) m1 mg) (t0 := start (sort kd2 tn meanI s) m2 mg) (s := s1) as (t & Ht & Hs).
  - intro p. apply k_body. exact HV.
  - intros tr' t' Ht'. apply (Hb (length tr')). apply texec_exec. exact Ht'.
  - split; [apply k_sort; exact HV|]. split; [constructor|]. repeat split. intros i Hi. exists i. cbn. auto.
  - exact H.
  - exists t. split; [exact Ht|]. assert (Ha := ssim_accesses _ _ _ _ Hs). assert (Hr := ssim_returned _ _ _ _ tt Hs).
    destruct Hs as (_ & _ & A & B & _ & D). split; [exact D|]. auto.
Qed.
End Calls.

Section Top.
Variables (pl : plat) (tn : tuning).
Hypothesis Hpl : platOk pl.
Hypothesis Htn : tuningOk pl tn.
Variables (opt : Z) (s : slice) (M : Z).

Definition header (e : ety) : Prop := match e with TS | TB | TLenS | TLenB => True | _ => False end.

Lemma header_call e m0 : header e -> typedSlice pl e m0 s -> sortCall pl tn (typedCall pl tn opt e s m0).
Proof. intros He Hs. apply call_typed; [exact Hs|]. right. right. apply Forall_forall. intros x _. destruct e; try contradiction; intros []. Qed.

Definition linkedTo {e1 e2} (m1 : Z -> elem e1) (m2 : Z -> elem e2) (s1 : st (proc (keyT e1)) (elem e1) unit) (s2 : st (proc (keyT e2)) (elem e2) unit) : Prop :=
  (forall i, cellsOf s i -> exists j, cellsOf s j /\ mem (sh s1) i = m1 j /\ mem (sh s2) i = m2 j) /\
  accesses s1 = accesses s2 /\ ngor (sh s1) = ngor (sh s2) /\ maxg (sh s1) = maxg (sh s2) /\ (returned s1 tt <-> returned s2 tt).

Lemma typed_pair e1 e2 m1 m2 tr s1 : sameWay e1 e2 -> typedSlice pl e2 m2 s -> (forall i, cellsOf s i -> looksAlike e1 e2 (m1 i) (m2 i)) ->
  traced (typedCall pl tn opt e1 s m1) M tr s1 ->
  exists s2, traced (typedCall pl tn opt e2 s m2) M tr s2 /\ linkedTo m1 m2 s1 s2.
Proof.
  intros Hw Hs Hl (mg & Hmg & H).
  assert (Hb : forall k t, exec (cProcs (typedCall pl tn opt e2 s m2)) M (cellsOf s) k (start (cProg (typedCall pl tn opt e2 s m2)) m2 mg) t ->
    forall x w, In (Some (x, w)) (accesses t) -> cellsOf s x).
  { intros k t Ht x w. apply (g_in_bounds pl tn Hpl Htn (typedCall pl tn opt e2 s m2)) with (M := M) (k := k).
    - apply header_call; [|exact Hs]. destruct Hw as [[_ X]|[_ X]]; cbn in X; repeat (destruct X as [<-|X]; [exact I|]); contradiction.
    - exists mg. split; [exact Hmg|exact Ht]. }
  assert (X : In (e1, e2) [(TS, TS); (TS, TB); (TB, TS); (TB, TB); (TLenS, TLenS); (TLenS, TLenB); (TLenB, TLenS); (TLenB, TLenB)]).
  { destruct Hw as [[A B]|[A B]]; cbn in A, B; repeat (destruct A as [<-|A]); try contradiction; repeat (destruct B as [<-|B]); try contradiction; cbn; tauto. }
  clear Hw Hs. cbn [In] in X.
  repeat (destruct X as [X|X]; [injection X as <- <-; cbn [looksAlike] in Hl|]); [..|contradiction].
  - destruct (pair_sim (Wd := pword pl) sbytes sbytes bytes_lt bytes_le (fun x _ => x) false true tn (mI pl) s m1 m2 Hl mg M tr s1 Hb H) as (s2 & A & B).
    exists s2. split; [exists mg; split; [exact Hmg|exact A]|exact B].
  - destruct (pair_sim (Wd := pword pl) sbytes bbytes bytes_lt bytes_le (fun x _ => x) false true tn (mI pl) s m1 m2 Hl mg M tr s1 Hb H) as (s2 & A & B).
    exists s2. split; [exists mg; split; [exact Hmg|exact A]|exact B].
  - destruct (pair_sim (Wd := pword pl) bbytes sbytes bytes_lt bytes_le (fun x _ => x) false true tn (mI pl) s m1 m2 Hl mg M tr s1 Hb H) as (s2 & A & B).
    exists s2. split; [exists mg; split; [exact Hmg|exact A]|exact B].
  - destruct (pair_sim (Wd := pword pl) bbytes bbytes bytes_lt bytes_le (fun x _ => x) false true tn (mI pl) s m1 m2 Hl mg M tr s1 Hb H) as (s2 & A & B).
    exists s2. split; [exists mg; split; [exact Hmg|exact A]|exact B].
  - assert (Hl' : forall i, cellsOf s i -> blen (sbytes (m1 i)) = blen (sbytes (m2 i))) by (intros i Hi; unfold blen; f_equal; apply Hl; exact Hi).
    destruct (pair_sim (Wd := pword pl) (fun x => blen (sbytes x)) (fun x => blen (sbytes x)) Z.ltb Z.leb (mI pl) true false tn (mI pl) s m1 m2 Hl' mg M tr s1 Hb H) as (s2 & A & B).
    exists s2. split; [exists mg; split; [exact Hmg|exact A]|exact B].
  - destruct (pair_sim (Wd := pword pl) (fun x => blen (sbytes x)) alen Z.ltb Z.leb (mI pl) true false tn (mI pl) s m1 m2 Hl mg M tr s1 Hb H) as (s2 & A & B).
    exists s2. split; [exists mg; split; [exact Hmg|exact A]|exact B].
  - destruct (pair_sim (Wd := pword pl) alen (fun x => blen (sbytes x)) Z.ltb Z.leb (mI pl) true false tn (mI pl) s m1 m2 Hl mg M tr s1 Hb H) as (s2 & A & B).
    exists s2. split; [exists mg; split; [exact Hmg|exact A]|exact B].
  - destruct (pair_sim (Wd := pword pl) alen alen Z.ltb Z.leb (mI pl) true false tn (mI pl) s m1 m2 Hl mg M tr s1 Hb H) as (s2 & A & B).
    exists s2. split; [exists mg; split; [exact Hmg|exact A]|exact B].
Qed.

(** Strings or slices that tell where they were. *)
Definition bytesIn (e : ety) : elem e -> list Z :=
  match e return elem e -> list Z with TS => sbytes | TB => bbytes | _ => fun _ => [] end.
Definition lenIn (e : ety) : elem e -> Z :=
  match e return elem e -> Z with TLenS => fun x => blen (sbytes x) | TLenB => alen | _ => fun _ => 0 end.

Lemma forall_cells {T} (Q : T -> Prop) (m : Z -> T) : 0 <= len s -> (Forall Q (contents m s) <-> forall i, cellsOf s i -> Q (m i)).
Proof.
  intro H0. unfold contents. rewrite Forall_map, Forall_forall. split; intros H i Hi.
  - unfold cellsOf in Hi. replace i with (off s + Z.of_nat (Z.to_nat (i - off s))) by lia. apply H. apply in_seq. lia.
  - apply in_seq in Hi. apply H. unfold cellsOf. lia.
Qed.

Lemma via_pos {ep} (e1 e2 : ety) (m1 : Z -> elem e1) (mp : Z -> elem ep) (m2 : Z -> elem e2) (at_ : elem ep -> Z) tr s1 :
  (forall j, at_ (mp j) = j) -> header ep ->
  sameWay e1 ep -> sameWay ep e2 -> typedSlice pl ep mp s -> typedSlice pl e2 m2 s ->
  (forall i, cellsOf s i -> looksAlike e1 ep (m1 i) (mp i)) -> (forall i, cellsOf s i -> looksAlike ep e2 (mp i) (m2 i)) ->
  traced (typedCall pl tn opt e1 s m1) M tr s1 ->
  exists s2 f, traced (typedCall pl tn opt e2 s m2) M tr s2 /\ movedAlike f m1 m2 s s1 s2 /\
    accesses s1 = accesses s2 /\ ngor (sh s1) = ngor (sh s2) /\ maxg (sh s1) = maxg (sh s2) /\ (returned s1 tt <-> returned s2 tt) /\
    (returned s1 tt -> Permutation (contents f s) (contents (fun i => i) s)).
Proof.
  intros Hat Hp W1 W2 Tp T2 L1 L2 H.
  destruct (typed_pair e1 ep m1 mp tr s1 W1 Tp L1 H) as (sp & Hsp & V1 & A1 & B1 & C1 & R1).
  destruct (typed_pair ep e2 mp m2 tr sp W2 T2 L2 Hsp) as (s2 & H2 & V2 & A2 & B2 & C2 & R2).
  exists s2, (fun i => at_ (mem (sh sp) i)). split; [exact H2|]. split; [|split; [exact (eq_trans A1 A2)|split; [exact (eq_trans B1 B2)|split; [exact (eq_trans C1 C2)|split; [exact (iff_trans R1 R2)|]]]]].
  - intros i Hi. destruct (V1 i Hi) as (j & Hj & E1 & Ej). destruct (V2 i Hi) as (j' & Hj' & Ej' & E2).
    assert (EA : at_ (mem (sh sp) i) = j) by (exact (eq_trans (f_equal at_ Ej) (Hat j))).
    assert (j = j') by (exact (eq_trans (eq_sym EA) (eq_trans (f_equal at_ Ej') (Hat j')))). subst j'.
    exact (eq_ind_r (fun z => cellsOf s z /\ mem (sh s1) i = m1 z /\ mem (sh s2) i = m2 z) (conj Hj (conj E1 E2)) EA).
  - intro Hr. apply R1 in Hr. assert (Hc : reach (typedCall pl tn opt ep s mp) M (length tr) sp) by (apply reach_traced; eauto).
    destruct (g_goal pl tn Hpl Htn _ (header_call ep mp Hp Tp) M _ sp Hc tt Hr) as [[HP _] _].
    assert (E : forall w, map at_ (contents w s) = contents (fun i => at_ (w i)) s) by (intro w; unfold contents; rewrite map_map; reflexivity).
    rewrite <- (E (mem (sh sp))). rewrite (Permutation_map at_ HP), E. unfold contents. erewrite map_ext; [reflexivity|]. intro a. apply Hat.
Qed.

Lemma alike_typed e1 e2 m1 m2 tr s1 : sameWay e1 e2 -> typedSlice pl e1 m1 s -> typedSlice pl e2 m2 s ->
  (forall i, cellsOf s i -> looksAlike e1 e2 (m1 i) (m2 i)) ->
  traced (typedCall pl tn opt e1 s m1) M tr s1 ->
  exists s2 f, traced (typedCall pl tn opt e2 s m2) M tr s2 /\ movedAlike f m1 m2 s s1 s2 /\
    accesses s1 = accesses s2 /\ ngor (sh s1) = ngor (sh s2) /\ maxg (sh s1) = maxg (sh s2) /\ (returned s1 tt <-> returned s2 tt) /\
    (returned s1 tt -> Permutation (contents f s) (contents (fun i => i) s)).
Proof.
  intros Hw [G1 F1] T2 Hl H. assert (L0 : 0 <= len s) by apply G1. rewrite (forall_cells _ _ L0) in F1.
  destruct Hw as [[W1 W2]|[W1 W2]].
  - apply (@via_pos TS e1 e2 m1 (fun j => StrH j (bytesIn e1 (m1 j))) m2 sptr); auto.
    + exact I.
    + left. cbn. auto.
    + left. cbn. auto.
    + split; [exact G1|]. apply (forall_cells _ _ L0). intros i Hi. specialize (F1 i Hi). cbn in W1.
      repeat (destruct W1 as [<-|W1]; [exact F1|]). contradiction.
    + intros i Hi. cbn in W1. repeat (destruct W1 as [<-|W1]; [reflexivity|]). contradiction.
    + intros i Hi. specialize (Hl i Hi). cbn in W1, W2. repeat (destruct W1 as [<-|W1]); try contradiction;
        repeat (destruct W2 as [<-|W2]); try contradiction; exact Hl.
  - apply (@via_pos TLenB e1 e2 m1 (fun j => AnyH j (lenIn e1 (m1 j)) 0) m2 aptr); auto.
    + exact I.
    + right. cbn. auto.
    + right. cbn. auto.
    + split; [exact G1|]. apply (forall_cells _ _ L0). intros i Hi. specialize (F1 i Hi). cbn in W1.
      repeat (destruct W1 as [<-|W1]); try contradiction; cbn in *; unfold blen in *; lia.
    + intros i Hi. cbn in W1. repeat (destruct W1 as [<-|W1]; [reflexivity|]). contradiction.
    + intros i Hi. specialize (Hl i Hi). cbn in W1, W2. repeat (destruct W1 as [<-|W1]); try contradiction;
        repeat (destruct W2 as [<-|W2]); try contradiction; cbn in *; unfold blen in *; congruence.
Qed.
End Top.
