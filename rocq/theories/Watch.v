(** * The checkers while other goroutines change the elements *)

From Coq Require Import List ZArith Lia Bool Sorted.
From Verif Require Import Lang SeqLogic Base Scalar Typed SeqOps ScalarFacts Kinds Spec KindsFacts TypedApi TypedCheck Lsw Calls.
Import ListNotations.
Open Scope Z_scope.
Local Arguments Z.mul : simpl never.
Local Arguments Z.add : simpl never.
Local Arguments Z.sub : simpl never.

(** ** Specification *)

(** [watched body M k l s s']: an execution from [s] to [s'] with [k] steps of the program, in which anybody may
    change any element at any time; [l] are all the states it passes through. *)
Inductive watched {P T R} (body : P -> cmd P T unit) (M : Z) : nat -> list (st P T R) -> st P T R -> st P T R -> Prop :=
| w_start s : watched body M 0 [s] s s
| w_prog k l s s1 s2 : watched body M k l s s1 -> pstep body s1 s2 -> watched body M (S k) (s2 :: l) s s2
| w_env k l s s1 s2 : watched body M k l s s1 -> estep M (fun _ => False) s1 s2 -> watched body M k (s2 :: l) s s2.

(** Cell [i] hadAt [x] at some moment. *)
Definition hadAt {P T R} (l : list (st P T R)) (i : Z) (x : T) : Prop := exists s, In s l /\ mem (sh s) i = x.

(** Cells [i] and [i-1], each at some moment, are related by [R]. *)
Definition met {P T A} (l : list (st P T A)) (i : Z) (R : T -> T -> Prop) : Prop :=
  exists x y, hadAt l i x /\ hadAt l (i - 1) y /\ R x y.

(** [x <= y] as Go compares them. *)
Definition goLe (e : ety) (x y : elem e) : Prop := ~ nan e x /\ ~ nan e y /\ le e x y.

(** Elements [i-1] and [i] were found in order, or one of them a NaN where NaNs belong. *)
Definition fine {e : ety} {P A} (l : list (Lang.st P (elem e) A)) (opt : Z) (s : slice) (i : Z) : Prop :=
  met l (off s + i) (fun x y => goLe e y x) \/
  (opt = 1 /\ exists x, hadAt l (off s + i) x /\ nan e x) \/
  (opt = -1 /\ exists y, hadAt l (off s + i - 1) y /\ nan e y).

(** ** Executions of code that only reads, whatever it finds

    [hwp n c l Q]: with any values in the cells of [Rg] at every read, [c] ends after at most [n] steps;
    [l] are the cells and values read so far. *)
Section Reading.
Context {P T : Type}.
Variable body : P -> cmd P T unit.
Variable Rg : Z -> Prop.

Fixpoint hwp {A} (n : nat) (c : cmd P T A) (l : list (Z * T)) (Q : A -> list (Z * T) -> Prop) {struct n} : Prop :=
  match n with
  | O => match view c with HRet a => Q a l | _ => False end
  | S n' =>
    match view c with
    | HRet a => Q a l
    | HTau c' => hwp n' c' l Q
    | HRead i k => Rg i /\ forall x, hwp n' (k x) ((i, x) :: l) Q
    | _ => False
    end
  end.

Lemma hwp_mono {A} n : forall m (c : cmd P T A) l (Q Q' : A -> list (Z * T) -> Prop), (n <= m)%nat ->
  (forall a l', Q a l' -> Q' a l') -> hwp n c l Q -> hwp m c l Q'.
Proof.
  induction n as [|n IH]; intros m c l Q Q' Hm HQ H; (destruct m as [|m]; [try lia|]); cbn [hwp] in *; destruct (view c); try contradiction; auto.
  - eapply IH; [|exact HQ|exact H]. lia.
  - destruct H as [H1 H2]. split; [exact H1|]. intro x. eapply IH; [|exact HQ|apply H2]. lia.
Qed.

Lemma hwp_ret {A} n (a : A) l (Q : A -> list (Z * T) -> Prop) : Q a l -> hwp n (Ret a) l Q.
Proof. intro H. destruct n; exact H. Qed.

Lemma hwp_bind {A B} n1 n2 : forall (c : cmd P T A) (k : A -> cmd P T B) l Q,
  hwp n1 c l (fun a l' => hwp n2 (k a) l' Q) -> hwp (n1 + n2) (Bind c k) l Q.
Proof.
  induction n1 as [|n1 IH]; intros c k l Q H; cbn [hwp] in H.
  - destruct (view c) eqn:E; try contradiction. simpl. destruct n2; cbn [hwp view] in *; rewrite E; exact H.
  - cbn [Nat.add hwp view]. destruct (view c) eqn:E; try contradiction; cbn [hcont].
    + assert (H' := hwp_mono n2 (S (n1 + n2)) _ _ _ _ ltac:(lia) (fun _ _ h => h) H). exact H'.
    + apply IH. exact H.
    + destruct H as [H1 H2]. split; [exact H1|]. intro x. apply IH, H2.
Qed.

Lemma hwp_loop {A S} d (b : S -> cmd P T (S + A)) (Inv : S -> list (Z * T) -> Prop) (mu : S -> nat) (Q : A -> list (Z * T) -> Prop) :
  (forall s l, Inv s l -> hwp d (b s) l (fun r l' => match r with inl s' => Inv s' l' /\ (mu s' < mu s)%nat | inr a => Q a l' end)) ->
  forall m s l, (mu s <= m)%nat -> Inv s l -> hwp ((d + 1) * (m + 1)) (Loop s b) l Q.
Proof.
  intro Hb. induction m as [|m IH]; intros s l Hm HI.
  - replace ((d + 1) * (0 + 1))%nat with (Datatypes.S (d + 0)) by lia. cbn [hwp view].
    apply hwp_bind. eapply hwp_mono; [reflexivity| |apply (Hb s l HI)]. intros [s'|a] l' H; [lia|exact H].
  - replace ((d + 1) * (Datatypes.S m + 1))%nat with (Datatypes.S (d + (d + 1) * (m + 1))) by lia. cbn [hwp view].
    apply hwp_bind. eapply hwp_mono; [reflexivity| |apply (Hb s l HI)]. intros [s'|a] l' H.
    + apply IH; [lia|apply H].
    + apply hwp_ret. exact H.
Qed.

Lemma hwp_read {A} n i (k : T -> cmd P T A) l Q : Rg i -> (forall x, hwp n (k x) ((i, x) :: l) Q) -> hwp (1 + n) (Read i k) l Q.
Proof. intros H1 H2. split; assumption. Qed.

Lemma hwp_sget {A} n s i (k : T -> cmd P T A) l Q : 0 <= i < len s -> Rg (off s + i) ->
  (forall x, hwp n (k x) ((off s + i, x) :: l) Q) -> hwp (1 + n) (Bind (sget s i) k) l Q.
Proof.
  intros Hi HR H. apply hwp_bind. unfold sget. destruct (Z.leb_spec 0 i); [|lia]. destruct (Z.ltb_spec i (len s)); [|lia]. cbn [andb hwp view].
  split; [exact HR|]. intro x. exact (H x).
Qed.

(** What that means on the machine. *)
Lemma watched_exec {A} M k l (s s' : st P T A) : watched body M k l s s' -> exec body M (fun _ => False) k s s'.
Proof. induction 1; [constructor|eapply exec_prog; eassumption|eapply exec_env; eassumption]. Qed.

Lemma watched_last {A} M k l (s s' : st P T A) : watched body M k l s s' -> In s' l.
Proof. destruct 1; left; reflexivity. Qed.

Definition heard {A} (L : list (st P T A)) (l : list (Z * T)) : Prop := forall i x, In (i, x) l -> hadAt L i x.

Lemma heard_more {A} (L : list (st P T A)) s l : heard L l -> heard (s :: L) l.
Proof. intros H i x Hin. destruct (H i x Hin) as (s1 & H1 & H2). exists s1. split; [right; exact H1|exact H2]. Qed.

Lemma hwp_exec {A} M k L (s0 s : st P T A) N Q : watched body M k L s0 s -> thr s0 = [] -> hwp N (main s0) [] Q ->
  thr s = [] /\ exists n l, (n + k <= N)%nat /\ heard L l /\ hwp n (main s) l Q.
Proof.
  intros H Ht HW. induction H as [s0|k L s0 s1 s2 He IH Hs|k L s0 s1 s2 He IH Hs].
  - split; [exact Ht|]. exists N, []. split; [lia|]. split; [intros i x []|exact HW].
  - destruct (IH Ht HW) as (T1 & n & l & Hn & Hl & H1). assert (Hin1 := watched_last M k L s0 s1 He).
    assert (K : thr s2 = [] /\ exists n' l', n = S n' /\ hwp n' (main s2) l' Q /\
      forall i x, In (i, x) l' -> In (i, x) l \/ mem (sh s1) i = x).
    { clear Hin1. destruct Hs as [s1 s2 [m' ts w m1 w' fs Hx|m' l1 c l2 w c' w' fs Hx|m' l1 c l2 w v k1 k2 E1 E2
        |m' l1 c l2 w v k1 k2 E1 E2|m' l1 c1 l2 c2 l3 w v k1 k2 E1 E2|m' l1 c1 l2 c2 l3 w v k1 k2 E1 E2]
        |m' ts w k1 z Hz|m' l1 c l2 w k1 z Hz]; cbn [main thr sh] in *; try (destruct l1; discriminate).
      - subst ts. unfold exec_local in Hx. destruct n as [|n]; cbn [hwp] in H1; destruct (view m'); try discriminate; try contradiction.
        + injection Hx as <- <- <-. split; [reflexivity|]. exists n, l. auto.
        + destruct H1 as [H1 H2]. injection Hx as <- <- <-. split; [reflexivity|]. exists n, ((i, mem w i) :: l).
          split; [reflexivity|]. split; [apply H2|]. intros j x [E|E]; [injection E as <- <-; right; reflexivity|left; exact E].
      - destruct n as [|n]; cbn [hwp] in H1; rewrite Hz in H1; contradiction. }
    destruct K as (T2 & n' & l' & -> & H2 & Hl'). split; [exact T2|]. exists n', l'. split; [lia|]. split; [|exact H2].
    apply heard_more. intros i x Hin. destruct (Hl' i x Hin) as [E|E]; [apply Hl; exact E|]. exists s1. split; [exact Hin1|exact E].
  - destruct (IH Ht HW) as (T1 & n & l & Hn & Hl & H1).
    destruct Hs as [m' ts w mem' mg' B1 B2]. cbn [main thr sh] in *. split; [exact T1|]. exists n, l. split; [exact Hn|]. split; [|exact H1].
    apply heard_more. exact Hl.
Qed.

Lemma hwp_safe {A} M k L (s0 s : st P T A) N Q : watched body M k L s0 s -> thr s0 = [] -> hwp N (main s0) [] Q ->
  ~ panicked s /\ (forall x w, In (Some (x, w)) (accesses s) -> Rg x /\ w = false) /\ (k <= N)%nat /\ thr s = [] /\
  ((exists a, returned s a) \/ exists s', pstep body s s') /\
  (forall a, returned s a -> exists l, heard L l /\ Q a l).
Proof.
  intros H Ht HW. destruct (hwp_exec M k L s0 s N Q H Ht HW) as (T1 & n & l & Hn & Hl & H1).
  destruct s as [m ts w]. cbn [main thr sh] in *. subst ts. split; [|split; [|split; [lia|split; [reflexivity|split]]]].
  - intros [E|(c & [] & _)]. cbn [main] in E. destruct n; cbn [hwp] in H1; rewrite E in H1; contradiction.
  - intros x b [E|[]]. cbn [main] in E. unfold access in E. destruct n; cbn [hwp] in H1; destruct (view m); try discriminate; try contradiction.
    injection E as <- <-. split; [apply H1|reflexivity].
  - unfold returned. cbn [main]. destruct n; cbn [hwp] in H1; destruct (view m) eqn:E; try contradiction; try (left; eexists; exact eq_refl);
      right; eexists; apply step_now; eapply (step_main _ _ []); unfold exec_local; rewrite E; reflexivity.
  - unfold returned. cbn [main]. intros a E. exists l. split; [exact Hl|]. destruct n; cbn [hwp] in H1; rewrite E in H1; exact H1.
Qed.

End Reading.

(** ** The checkers *)

Section Check.
Context {P T : Type}.
Variable s : slice.
Notation hw := (@hwp P T (cellsOf s)).

(** Elements [i] and [i-1] are among the values read, and [bad] says [b] of them. *)
Definition pairOf (bad : T -> T -> bool) (b : bool) (i : Z) (l : list (Z * T)) : Prop :=
  exists x y, In (off s + i, x) l /\ In (off s + i - 1, y) l /\ bad x y = b.

Lemma pairOf_incl bad b i l l' : incl l l' -> pairOf bad b i l -> pairOf bad b i l'.
Proof. intros H (x & y & H1 & H2 & H3). exists x, y. auto. Qed.

Definition verdictOf (bad : T -> T -> bool) (lo hi r : Z) (l : list (Z * T)) : Prop :=
  (r = 0 /\ forall i, lo < i <= hi -> pairOf bad false i l) \/
  (lo < r <= hi /\ pairOf bad true r l /\ forall i, r < i <= hi -> pairOf bad false i l).

Lemma hwp_downLoop (bad : T -> T -> bool) lo hi l0 : 0 <= lo -> hi < len s ->
  hw (3 * (Z.to_nat (hi - lo) + 1)) (Loop hi (fun i =>
      if lo <? i then
        x <- sget s i ;; y <- sget s (i - 1) ;;
        if bad x y then done i else goto (i - 1)
      else done 0))%cmd l0 (fun r l => incl l0 l /\ verdictOf bad lo hi r l).
Proof.
  intros Hlo Hhi.
  eapply (hwp_loop _ 2 _ (fun i l => incl l0 l /\ i <= hi /\ forall j, Z.max lo i < j <= hi -> pairOf bad false j l) (fun i => Z.to_nat (i - lo))).
  - intros i l (Hl & Hi & Hj). destruct (Z.ltb_spec lo i) as [C|C].
    + apply (hwp_sget _ 1); [lia|unfold cellsOf; lia|]. intro x. apply (hwp_sget _ 0); [lia|unfold cellsOf; lia|]. intro y.
      set (l' := _ :: _ :: l). assert (H1 : incl l l') by (intros z Hz; right; right; exact Hz).
      assert (H2 : pairOf bad (bad x y) i l').
      { exists x, y. split; [right; left; reflexivity|]. split; [left; f_equal; lia|reflexivity]. }
      destruct (bad x y); apply hwp_ret.
      * split; [intros z Hz; apply H1, Hl, Hz|]. right. split; [lia|]. split; [exact H2|]. intros j Hj'. apply (pairOf_incl _ _ _ l l' H1). apply Hj. lia.
      * split; [|lia]. split; [intros z Hz; apply H1, Hl, Hz|]. split; [lia|]. intros j Hj'.
        destruct (Z.eq_dec j i) as [->|]; [exact H2|]. apply (pairOf_incl _ _ _ l l' H1). apply Hj. lia.
    + apply hwp_ret. split; [exact Hl|]. left. split; [reflexivity|]. intros j Hj'. apply Hj. lia.
  - lia.
  - split; [apply incl_refl|]. split; [lia|]. intros; lia.
Qed.

Section F.
Variable ne : T -> bool.

Definition nanAt (i : Z) (l : list (Z * T)) : Prop := exists x, In (off s + i, x) l /\ ne x = true.

Definition skipOf (opt : Z) (lo hi : Z) (l : list (Z * T)) : Prop :=
  0 <= lo <= len s /\ -1 <= hi < len s /\
  ((opt = NaNlarge /\ lo = 0 /\ forall i, hi < i < len s -> nanAt i l) \/
   (opt = NaNsmall /\ hi = len s - 1 /\ forall i, 0 <= i < lo -> nanAt i l) \/
   (opt <> NaNlarge /\ opt <> NaNsmall /\ lo = 0 /\ hi = len s - 1)).

Lemma hwp_isSortedF (ge : T -> T -> bool) opt : 0 <= len s ->
  hw (6 * (Z.to_nat (len s) + 2)) (isSortedF ne ge opt opt s) [] (fun r l => exists lo hi,
    skipOf opt lo hi l /\ verdictOf (fun x y => negb (ge x y)) lo hi r l).
Proof.
  intro H0. unfold isSortedF.
  apply hwp_mono with (n := (2 * (Z.to_nat (len s) + 1) + 3 * (Z.to_nat (len s) + 1))%nat) (Q := fun r l => exists lo hi,
    skipOf opt lo hi l /\ verdictOf (fun x y => negb (ge x y)) lo hi r l); [lia|auto|].
  apply hwp_bind.
  apply hwp_mono with (n := (2 * (Z.to_nat (len s) + 1))%nat) (Q := fun '(lo, hi) l => skipOf opt lo hi l); [lia| |].
  - intros [lo hi] l Hs. assert (Hs' := Hs). destruct Hs' as (Hlo & Hhi & _).
    eapply hwp_mono; [| |apply (hwp_downLoop (fun x y => negb (ge x y)) lo hi l); lia]; [lia|].
    intros r l' [Hl Hv]. exists lo, hi. split; [|exact Hv]. split; [exact Hlo|]. split; [exact Hhi|].
    assert (N : forall i, nanAt i l -> nanAt i l') by (intros i (x & H1 & H2); exists x; auto).
    destruct Hs as (_ & _ & [(E & E1 & Hn)|[(E & E1 & Hn)|E]]); [left|right; left|right; right; exact E]; auto.
  - destruct (Z.eqb_spec opt NaNlarge) as [->|N1]; [|destruct (Z.eqb_spec opt NaNsmall) as [->|N2]].
    + eapply (hwp_loop _ 1 _ (fun h l => -1 <= h < len s /\ forall i, h < i < len s -> nanAt i l) (fun h => Z.to_nat (h + 1))).
      * intros h l [Hh Hn]. destruct (Z.leb_spec 0 h) as [C|C].
        -- apply (hwp_sget _ 0); [lia|unfold cellsOf; lia|]. intro x. destruct (ne x) eqn:E; cbn [negb]; apply hwp_ret.
           ++ split; [|lia]. split; [lia|]. intros i Hi. destruct (Z.eq_dec i h) as [->|].
              ** exists x. split; [left; reflexivity|exact E].
              ** destruct (Hn i ltac:(lia)) as (y & H1 & H2). exists y. split; [right; exact H1|exact H2].
           ++ split; [lia|]. split; [lia|]. left. split; [reflexivity|]. split; [reflexivity|].
              intros i Hi. destruct (Hn i Hi) as (y & H1 & H2). exists y. split; [right; exact H1|exact H2].
        -- apply hwp_ret. split; [lia|]. split; [lia|]. left. auto.
      * lia.
      * split; [lia|]. intros; lia.
    + eapply (hwp_loop _ 1 _ (fun h l => 0 <= h <= len s /\ forall i, 0 <= i < h -> nanAt i l) (fun h => Z.to_nat (len s - h))).
      * intros h l [Hh Hn]. destruct (Z.leb_spec h (len s - 1)) as [C|C].
        -- apply (hwp_sget _ 0); [lia|unfold cellsOf; lia|]. intro x. destruct (ne x) eqn:E; cbn [negb]; apply hwp_ret.
           ++ split; [|lia]. split; [lia|]. intros i Hi. destruct (Z.eq_dec i h) as [->|].
              ** exists x. split; [left; reflexivity|exact E].
              ** destruct (Hn i ltac:(lia)) as (y & H1 & H2). exists y. split; [right; exact H1|exact H2].
           ++ split; [lia|]. split; [lia|]. right; left. split; [reflexivity|]. split; [reflexivity|].
              intros i Hi. destruct (Hn i Hi) as (y & H1 & H2). exists y. split; [right; exact H1|exact H2].
        -- apply hwp_ret. split; [lia|]. split; [lia|]. right; left. auto.
      * lia.
      * split; [lia|]. intros; lia.
    + apply hwp_ret. split; [lia|]. split; [lia|]. right; right. auto.
Qed.
End F.
End Check.

(** The return value reports what was found. *)
Section Api.
Variable pl : plat.
Hypothesis Hpl : platOk pl.
Variables (tn : tuning) (opt : Z) (e : ety) (s : slice).
Hypothesis Hs : goSlice pl s.
Notation kd := (kindOf pl e).
Notation bdy := (procs pl tn e).

Definition badOf : elem e -> elem e -> bool :=
  if isFloat e then fun x y => negb (leb kd (key kd y) (key kd x)) else ltT kd.

Lemma badOf_spec x y : wellTyped pl e x -> wellTyped pl e y -> badOf x y = false <-> goLe e y x.
Proof.
  intros Hx Hy. unfold badOf, goLe. destruct (isFloat e) eqn:Ef.
  - rewrite Bool.negb_false_iff. rewrite (ge_spec pl e x y Ef Hx Hy). tauto.
  - assert (N : forall z, ~ nan e z) by (intro z; apply nonfloat_nan; exact Ef).
    assert (L := ltT_lt pl e x y Hpl Hx Hy (N x) (N y)). assert (L2 := lt_nle pl e x y Hpl Hx Hy (N x) (N y)).
    assert (D : le e y x \/ ~ le e y x).
    { rewrite <- (le_leb pl e y x Hy Hx (N y) (N x)). destruct (leb _ _ _); [left; reflexivity|right; discriminate]. }
    destruct (ltT kd x y).
    + split; [discriminate|]. intros (_ & _ & G). exfalso. apply L2; [apply L; reflexivity|exact G].
    + split; [|reflexivity]. intros _. split; [apply N|]. split; [apply N|]. destruct D as [D|D]; [exact D|].
      apply L2 in D. apply L in D. discriminate.
Qed.

Lemma hwp_checkProg : @hwp (proc (keyT e)) (elem e) (cellsOf s) _ (6 * (Z.to_nat (len s) + 2)) (checkProg pl opt e s) []
  (fun r l => exists lo hi, (isFloat e = true /\ skipOf s (selfNe e) opt lo hi l \/ lo = 0 /\ hi = len s - 1) /\ verdictOf s badOf lo hi r l).
Proof.
  assert (H0 : 0 <= len s) by apply Hs. unfold checkProg, checkLive, badOf. destruct (isFloat e) eqn:Ef.
  - eapply hwp_mono; [reflexivity| |apply hwp_isSortedF; exact H0]. intros r l (lo & hi & H1 & H2). exists lo, hi. split; [left; auto|exact H2].
  - eapply hwp_mono; [| |apply (hwp_downLoop s (ltT kd) 0 (len s - 1) []); lia]; [lia|].
    intros r l [_ H]. exists 0, (len s - 1). split; [right; auto|exact H].
Qed.

Theorem check_watched m0 mg0 M k L st : watched bdy M k L (start (checkProg pl opt e s) m0 mg0) st ->
  ~ panicked st /\ (forall x w, In (Some (x, w)) (accesses st) -> cellsOf s x /\ w = false) /\
  Z.of_nat k <= 6 * len s + 12 /\ thr st = [] /\
  ((exists r, returned st r) \/ exists st', pstep bdy st st').
Proof.
  intro H. destruct (hwp_safe bdy (cellsOf s) M k L _ st _ _ H eq_refl hwp_checkProg) as (H1 & H2 & H3 & H4 & H5 & _).
  assert (0 <= len s) by apply Hs. repeat (split; [first [assumption|lia]|]). exact H5.
Qed.

Theorem check_watched_result m0 mg0 M k L st r : watched bdy M k L (start (checkProg pl opt e s) m0 mg0) st ->
  (forall s1, In s1 L -> typedSlice pl e (mem (sh s1)) s) -> returned st r ->
  (r = 0 /\ forall i, 0 < i < len s -> fine L opt s i) \/
  (0 < r < len s /\ met L (off s + r) (fun x y => ~ goLe e y x) /\ forall i, r < i < len s -> fine L opt s i).
Proof.
  intros H Hty0 Hr. set (s0 := start (checkProg pl opt e s) m0 mg0) in *.
  assert (Hty : forall i x, cellsOf s i -> hadAt L i x -> wellTyped pl e x).
  { intros i x Hi (s1 & H1 & <-). destruct (Hty0 s1 H1) as [_ F]. rewrite contents_forall in F. apply F. exact Hi. }
  destruct (hwp_safe bdy (cellsOf s) M k L s0 st _ _ H eq_refl hwp_checkProg) as (_ & _ & _ & _ & _ & H6).
  destruct (H6 r Hr) as (l & Hl & lo & hi & Hsk & Hv). assert (H0 : 0 <= len s) by apply Hs.
  assert (P : forall b i, 0 < i < len s -> pairOf s badOf b i l ->
    met L (off s + i) (fun x y => if b then ~ goLe e y x else goLe e y x)).
  { intros b i Hi (x & y & H1 & H2 & H3). apply Hl in H1, H2. exists x, y. split; [exact H1|]. split; [exact H2|].
    assert (Wx := Hty (off s + i) x ltac:(unfold cellsOf; lia) H1). assert (Wy := Hty (off s + i - 1) y ltac:(unfold cellsOf; lia) H2).
    assert (B := badOf_spec x y Wx Wy). destruct b; [intro G; apply B in G; congruence|apply B; exact H3]. }
  assert (N : forall i, nanAt s (selfNe e) i l -> exists x, hadAt L (off s + i) x /\ nan e x).
  { intros i (x & H1 & H2). exists x. split; [apply Hl; exact H1|apply selfNe_nan; exact H2]. }
  assert (Hb : 0 <= lo /\ hi < len s /\ (forall i, hi < i < len s -> fine L opt s i) /\
    forall i, 0 < i <= lo -> fine L opt s i).
  { destruct Hsk as [(_ & A1 & A2 & [(E & E1 & Hn)|[(E & E1 & Hn)|(_ & _ & E1 & E2)]])|[-> ->]].
    - split; [lia|]. split; [lia|]. split; [|intros; lia]. intros i Hi. right; left. split; [exact E|apply N, Hn, Hi].
    - split; [lia|]. split; [lia|]. split; [intros; lia|]. intros i Hi. right; right. split; [exact E|].
      destruct (N (i - 1) (Hn (i - 1) ltac:(lia))) as (y & H1 & H2). exists y. replace (off s + i - 1) with (off s + (i - 1)) by lia. auto.
    - split; [lia|]. split; [lia|]. split; intros; lia.
    - split; [lia|]. split; [lia|]. split; intros; lia. }
  destruct Hb as (B1 & B2 & B3 & B4). destruct Hv as [[-> Hv]|(Hr' & Hbad & Hv)].
  - left. split; [reflexivity|]. intros i Hi. destruct (Z_le_gt_dec i lo); [apply B4; lia|].
    destruct (Z_le_gt_dec i hi); [|apply B3; lia]. left. apply (P false i Hi). apply Hv. lia.
  - right. split; [lia|]. split; [apply (P true r ltac:(lia) Hbad)|]. intros i Hi.
    destruct (Z_le_gt_dec i hi); [|apply B3; lia]. left. apply (P false i ltac:(lia)). apply Hv. lia.
Qed.

End Api.

(** ** IsSorted with a Lesswap *)

Section Lsw.
Context {T : Type}.
Variable pl : plat.
Variable lt : T -> T -> bool.
Variables cap n : Z.
Hypothesis Hn : - intSize pl < n < intSize pl.
Hypothesis Hcap : n <= Z.max 0 cap.
Variable body : lproc -> cmd lproc T unit.
Notation prog := (lswIsSorted (Wd := pword pl) lt cap n).

Lemma hwp_lswIsSorted : hwp (cellsOf (Slice 0 n)) (3 * (Z.to_nat n + 1)) prog []
  (fun r l => verdictOf (Slice 0 n) lt 0 (n - 1) r l).
Proof.
  unfold lswIsSorted. rewrite iw_small by (rewrite (intSize_eq pl) in Hn; lia).
  eapply (hwp_loop _ 2 _ (fun i l => i <= n - 1 /\ forall j, Z.max 0 i < j <= n - 1 -> pairOf (Slice 0 n) lt false j l) (fun i => Z.to_nat i)).
  - intros i l (Hi & Hj). destruct (Z.ltb_spec 0 i) as [C|C].
    + apply (hwp_bind _ 2 0). unfold lsw.
      assert (E : forall j, 0 <= j < n -> (0 <=? j) && (j <? cap) = true).
      { intros j Hj'. destruct (Z.leb_spec 0 j); [|lia]. destruct (Z.ltb_spec j cap); [reflexivity|lia]. }
      rewrite <- andb_assoc, (E i) by lia. cbn [andb negb]. unfold cget. rewrite (E i), (E (i - 1)) by lia.
      apply (hwp_bind _ 1 1). apply (hwp_read _ 0); [unfold cellsOf; cbn [off len]; lia|]. intro x. apply hwp_ret.
      apply (hwp_bind _ 1 0). apply (hwp_read _ 0); [unfold cellsOf; cbn [off len]; lia|]. intro y. apply hwp_ret.
      set (l' := _ :: _ :: l). assert (H1 : incl l l') by (intros z Hz; right; right; exact Hz).
      assert (H2 : pairOf (Slice 0 n) lt (lt x y) i l').
      { exists x, y. cbn [off]. split; [right; left; reflexivity|]. split; [left; f_equal; lia|reflexivity]. }
      destruct (lt x y); [rewrite Z.eqb_refl|]; apply hwp_ret, hwp_ret.
      * right. split; [lia|]. split; [exact H2|]. intros j Hj'. apply (pairOf_incl _ _ _ _ l l' H1). apply Hj. lia.
      * split; [|lia]. split; [lia|]. intros j Hj'.
        destruct (Z.eq_dec j i) as [->|]; [exact H2|]. apply (pairOf_incl _ _ _ _ l l' H1). apply Hj. lia.
    + apply hwp_ret. left. split; [reflexivity|]. intros j Hj'. apply Hj. lia.
  - lia.
  - split; [lia|]. intros; lia.
Qed.

Theorem lsw_watched m0 mg0 M k L st : watched body M k L (start prog m0 mg0) st ->
  ~ panicked st /\ (forall x w, In (Some (x, w)) (accesses st) -> 0 <= x < n /\ w = false) /\
  Z.of_nat k <= 3 * Z.max 0 n + 3 /\ thr st = [] /\
  ((exists r, returned st r) \/ exists st', pstep body st st') /\
  forall r, returned st r ->
  (r = 0 /\ forall i, 0 < i < n -> met L i (fun x y => lt x y = false)) \/
  (0 < r < n /\ met L r (fun x y => lt x y = true) /\
     forall i, r < i < n -> met L i (fun x y => lt x y = false)).
Proof.
  intro H. set (s0 := start prog m0 mg0) in *. destruct (hwp_safe body (cellsOf (Slice 0 n)) M k L s0 st _ _ H eq_refl hwp_lswIsSorted) as (H1 & H2 & H3 & H4 & H5 & H6).
  split; [exact H1|]. split; [exact H2|]. split; [lia|]. split; [exact H4|]. split; [exact H5|].
  intros r Hr. destruct (H6 r Hr) as (l & Hl & Hv).
  assert (P : forall b i, pairOf (Slice 0 n) lt b i l -> met L i (fun x y => lt x y = b)).
  { intros b i (x & y & A1 & A2 & A3). exists x, y. split; [apply Hl; exact A1|]. split; [apply Hl; exact A2|exact A3]. }
  destruct Hv as [[-> Hv]|(Hr' & Hbad & Hv)].
  - left. split; [reflexivity|]. intros i Hi. apply P, Hv. lia.
  - right. split; [lia|]. split; [apply P, Hbad|]. intros i Hi. apply P, Hv. lia.
Qed.

End Lsw.
