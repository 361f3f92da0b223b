(** * Sort of sortyLsw.go when reads deliver anything

    The comparison is irreflexive and otherwise unknown.  The reads of elements deliver anything,
    except (if [lax] is [false]) those of the goroutine started by partCon; then Sort reads and
    writes only elements that the goroutine owns at that moment. *)

From Coq Require Import List ZArith Lia Bool.
From Verif Require Import Lang SeqLogic ConcLogic SafeLogic Base Scalar Typed SeqOps ScalarFacts TypedPart
  TypedPivot TypedShort ConcSort TypedLong TypedSort Spec Lsw LswSeq LswPart LswLong LswSort Sly.
Import ListNotations.
Open Scope Z_scope.

Local Arguments Z.mul : simpl never.
Local Arguments Z.add : simpl never.
Local Arguments Z.sub : simpl never.
Local Arguments Z.pow : simpl never.

(** sixb.MeanI lies strictly between numbers that are not neighbours. *)
Definition meanIn {Wd : word} (meanI : Z -> Z -> Z) : Prop :=
  forall x y, 0 <= x -> x + 2 <= y -> y < 2 * wq -> x < meanI x y.

Section SlyLsw.
Context {Wd : word}.
Context {T : Type}.
Variable lt : T -> T -> bool.
Hypothesis Hirr : forall x, lt x x = false.
Variables cap top : Z.                (* size of the collection; number of elements to sort *)
Hypothesis Htop : top <= cap.
Variable tn : tuning.
Variable meanI : Z -> Z -> Z.
Hypothesis HmeanI : meanOk meanI.
Hypothesis HM : meanEven meanI.
Hypothesis HS : meanIn meanI.

Notation maxIns := (maxLenInsFC tn).
Notation maxRec := (maxLenRecFC tn).
Hypothesis HIns : 9 <= maxIns.
Hypothesis HRec : 2 * maxIns < maxRec.
Hypothesis HRec2 : maxRec < wq - 1.

Notation body := (lswBody lt cap tn meanI).

Variable Dm : nat.
Variable lax : bool.
Notation G := (lswGrain tn).
Notation yp := (yp (Gr := G) body Dm lax).

(** ** Code of one goroutine *)

Definition moved (g g' : gst T) : Prop := exists v x, g' = Gst (dom g) (rd g) v (md g) x.

Lemma moved_refl g : moved g g.
Proof. exists (val g), (seen g). destruct g; reflexivity. Qed.

Lemma moved_trans g1 g2 g3 : moved g1 g2 -> moved g2 g3 -> moved g1 g3.
Proof. intros (v & x & ->) (v' & x' & ->). exists v', x'. reflexivity. Qed.

Lemma moved_live g g' : moved g g' -> live g -> live g'.
Proof. intros (v & x & ->) H. exact H. Qed.

Section Code.
Context {Or Ow : cells}.              (* the elements it may read; read and write *)
Context {sure : Prop}.                (* its reads are right *)

Definition has (g : gst T) : Prop :=
  (forall i, Or i -> canRead lax g i) /\ (forall i, Ow i -> dom g i /\ canRead lax g i) /\
  (sure -> lax = false /\ partner g).

Lemma moved_has g g' : moved g g' -> has g -> has g'.
Proof. intros (v & x & ->) H. exact H. Qed.

Definition ss (m D : nat) {A} (Q : A -> Prop) (c : cmd lproc T A) : Prop :=
  forall g, live g -> has g -> yp m D (fun a g' => Q a /\ moved g g') c g.

Lemma ss_conseq m D1 D {A} (Q1 Q : A -> Prop) c : ss m D1 Q1 c -> (D1 <= D)%nat -> (forall a, Q1 a -> Q a) -> ss m D Q c.
Proof.
  intros H HD HQ g Hg Hh. eapply yp_conseq; [exact (H g Hg Hh)|exact HD|]. cbv beta. intros a g' [H1 H2]. auto.
Qed.

Lemma ss_ret m D {A} (Q : A -> Prop) a : Q a -> ss m D Q (Ret a).
Proof. intros H g Hg Hh. apply yp_ret. split; [exact H|apply moved_refl]. Qed.

Lemma ss_at m D {A} (Q : A -> Prop) c g0 g : ss m D Q c -> live g0 -> has g0 -> moved g0 g ->
  yp m D (fun a g' => Q a /\ moved g0 g') c g.
Proof.
  intros H Hl Hh Hm. eapply yp_conseq; [apply (H g (moved_live _ _ Hm Hl) (moved_has _ _ Hm Hh))|apply le_n|].
  cbv beta. intros a g' [H1 H2]. split; [exact H1|eapply moved_trans; eassumption].
Qed.

Lemma ss_bind m D {A B} (Q1 : B -> Prop) (Q : A -> Prop) (c : cmd lproc T B) k :
  ss m D Q1 c -> (forall b m', (m' <= m)%nat -> Q1 b -> ss m' D Q (k b)) -> ss m D Q (Bind c k).
Proof.
  intros H HK g Hg Hh. eapply yp_bind; [exact (H g Hg Hh)|]. cbv beta. intros b g' m' Hm [H1 H2].
  apply ss_at; auto.
Qed.

Lemma ss_loop m D {A S} (Inv : S -> Prop) (Q : A -> Prop) (bd : S -> cmd lproc T (S + A)) :
  (forall s m', (m' < m)%nat -> Inv s -> ss m' D (fun r => match r with inl s' => Inv s' | inr a => Q a end) (bd s)) ->
  forall s, Inv s -> ss m D Q (Loop s bd).
Proof.
  intros H s HI g Hg Hh.
  apply (yp_loop body Dm lax m D (fun s g' => Inv s /\ moved g g')).
  - intros s1 g1 m' Hm [H1 H2]. eapply yp_conseq; [apply (ss_at _ _ _ _ g g1 (H s1 m' Hm H1)); assumption|apply le_n|].
    cbv beta. intros [s2|a] g2 H3; exact H3.
  - split; [exact HI|apply moved_refl].
Qed.

Lemma ss_call m D {A} (Q1 : unit -> Prop) (Q : A -> Prop) p (k : cmd lproc T A) : (0 < D)%nat ->
  (forall m', (m' < m)%nat -> ss m' (D - 1) Q1 (body p)) ->
  (forall m', (m' < m)%nat -> Q1 tt -> ss m' D Q k) -> ss m D Q (Lang.Call p k).
Proof.
  intros HD H HK g Hg Hh.
  eapply (yp_call body Dm lax m D _ p _ g (fun a g' => Q1 a /\ moved g g')); [exact HD|exact Hg| |].
  - intros m' Hm. apply (H m' Hm); assumption.
  - intros g' m' Hm [H1 H2]. apply ss_at; auto.
Qed.

Lemma ss_cget m D {A} (Q : A -> Prop) i k : Ow i -> 0 <= i < top ->
  (forall x m', (m' <= m)%nat -> ss m' D Q (k x)) -> ss m D Q (Bind (cget cap i) k).
Proof.
  intros Hw Hi HK. apply (ss_bind m D (fun _ => True)); [|intros; apply HK; assumption].
  intros g Hg Hh. unfold cget. replace ((0 <=? i) && (i <? cap)) with true by lia.
  apply yp_read; [exact Hg|apply Hh; exact Hw|]. intros z m' _ _. apply yp_ret. split; [exact I|apply moved_refl].
Qed.

Lemma ss_cset m D {A} (Q : A -> Prop) i x k : Ow i -> 0 <= i < top ->
  (forall m', (m' <= m)%nat -> ss m' D Q (k tt)) -> ss m D Q (Bind (cset cap i x) k).
Proof.
  intros Hw Hi HK. apply (ss_bind m D (fun _ => True)); [|intros [] m' Hm _; apply HK; assumption].
  intros g Hg Hh. unfold cset. replace ((0 <=? i) && (i <? cap)) with true by lia.
  apply yp_write; [exact Hg|apply Hh; exact Hw|]. intros m' _. apply yp_ret. split; [exact I|].
  eexists. exists (seen g). destruct g; reflexivity.
Qed.

(** Lesswap(i, k, r, s). *)
Lemma ss_lsw m D i k r s : 0 <= i < top -> 0 <= k < top -> 0 <= r < top -> 0 <= s < top ->
  Or i -> Or k -> r = s \/ (Ow r /\ Ow s) \/ (i = k /\ sure) ->
  ss m D (fun b : bool => i = k -> sure -> b = false) (lsw lt cap i k r s).
Proof.
  intros Hi Hk Hr Hs Oi Ok Hw g Hg Hh. rewrite lsw_strict by lia.
  assert (Rd : forall j (k : T -> cmd lproc T bool) m1 (Q : bool -> gst T -> Prop), 0 <= j < top -> Or j ->
    (forall x m2, (m2 <= m1)%nat -> (sure -> x = val g j) -> yp m2 D Q (k x) g) -> yp m1 D Q (Bind (cget cap j) k) g).
  { intros j kk m1 Q Hj Oj HK. eapply yp_bind with (Q1 := fun x g' => g' = g /\ (sure -> x = val g j)).
    - unfold cget. replace ((0 <=? j) && (j <? cap)) with true by lia.
      apply yp_read; [exact Hg|exact (proj1 Hh j Oj)|]. intros z m' _ Hz. apply yp_ret. split; [reflexivity|].
      intro Hsu. apply Hz; apply Hh; exact Hsu.
    - intros x g' m2 Hm2 [-> Hx]. apply HK; assumption. }
  apply Rd; [lia|exact Oi|]. intros x m1 Hm1 Hx. apply Rd; [lia|exact Ok|]. intros y m2 Hm2 Hy.
  destruct (lt x y) eqn:E.
  2:{ apply yp_ret. split; [auto|apply moved_refl]. }
  assert (Hne : i = k -> sure -> False).
  { intros -> Hsu. rewrite (Hx Hsu), (Hy Hsu), Hirr in E. discriminate. }
  destruct (Z.eqb_spec r s) as [Ers|Ers].
  { apply yp_ret. split; [intros; exfalso; auto|apply moved_refl]. }
  destruct Hw as [?|[[Wr Ws]|[? ?]]]; [contradiction| |exfalso; auto].
  assert (H : ss m2 D (fun b : bool => i = k -> sure -> b = false)
    (Bind (cget cap s) (fun a => Bind (cget cap r) (fun b => Bind (cset cap r a) (fun _ => Bind (cset cap s b) (fun _ => Ret true)))))).
  { apply ss_cget; [exact Ws|lia|]. intros x' m3 _. apply ss_cget; [exact Wr|lia|]. intros y' m4 _.
    apply ss_cset; [exact Wr|lia|]. intros m5 _. apply ss_cset; [exact Ws|lia|]. intros m6 _. apply ss_ret. intros; exfalso; auto. }
  exact (H g Hg Hh).
Qed.

(** The goroutine may read and write the elements from [lo] to [hi]. *)
Definition own (lo hi : Z) : Prop := 0 <= lo /\ hi < top /\ forall i, lo <= i <= hi -> Or i /\ Ow i.

Lemma own_sub lo hi lo' hi' : own lo hi -> lo <= lo' -> hi' <= hi -> own lo' hi'.
Proof. intros (H1 & H2 & H3) A B. split; [lia|]. split; [lia|]. intros i Hi. apply H3. lia. Qed.

Lemma ss_lswo m D {A} (Q : A -> Prop) lo hi i k r s kk : own lo hi ->
  lo <= i <= hi -> lo <= k <= hi -> lo <= r <= hi -> lo <= s <= hi ->
  (forall b m', (m' <= m)%nat -> ss m' D Q (kk b)) -> ss m D Q (Bind (lsw lt cap i k r s) kk).
Proof.
  intros (H1 & H2 & H3) Hi Hk Hr Hs HK. eapply ss_bind; [apply ss_lsw; try lia; try (apply H3; lia)|].
  - right; left. split; apply H3; lia.
  - intros b m' Hm _. apply HK. exact Hm.
Qed.

(** ** Insertion sort and pivot selection *)

Lemma ss_insLoop m D first step n last : own first last -> 1 <= step -> 1 <= n ->
  first + n * step < 2 * wq -> last = first + (n - 1) * step ->
  ss m D (fun _ => True) (insLoop lt cap step first last).
Proof.
  intros Ho Hstep Hn Hwrap ->. unfold insLoop.
  assert (H0 : 0 <= first) by apply Ho.
  apply (ss_loop m D (fun h => exists j, h = first + j * step /\ 1 <= j <= n)).
  2:{ exists 1. lia. }
  intros h m1 _ (j & -> & Hj).
  destruct (Z.leb_spec (first + j * step) (first + (n - 1) * step)) as [C|C].
  2:{ apply ss_ret. exact I. }
  assert (Hj' : j < n) by nia.
  apply (ss_bind _ _ (fun _ => True)).
  { apply (ss_loop m1 D (fun l => exists i, l = first + i * step /\ 1 <= i <= j)).
    - intros l m2 _ (i & -> & Hi).
      replace (first + i * step - step) with (first + (i - 1) * step) by lia.
      eapply ss_lswo; [exact Ho|nia|nia|nia|nia|]. intros [|] m3 _; [|apply ss_ret; exact I]. cbv zeta.
      destruct (Z.leb_spec (first + (i - 1) * step) first) as [C2|C2]; apply ss_ret; [exact I|].
      exists (i - 1). split; [reflexivity|nia].
    - exists j. lia. }
  intros _ m2 _ _. apply ss_ret.
  assert (Hr : 0 <= first + (j + 1) * step < 2 * wq) by nia.
  replace (first + j * step + step) with (first + (j + 1) * step) by lia.
  rewrite iw_small by lia. exists (j + 1). split; [reflexivity|lia].
Qed.

Lemma ss_insertion m D lo hi : own lo hi -> lo <= hi -> 11 * hi + 29 < 20 * wq ->
  ss m D (fun _ => True) (lswInsertion lt cap lo hi).
Proof. intros Ho H1 H2. assert (0 <= lo) by apply Ho. rewrite lswInsertion_loop. apply (ss_insLoop m D lo 1 (hi - lo + 1)); [exact Ho|lia|lia|lia|lia]. Qed.

Lemma ss_pivot m D lo hi c :
  c = 2 \/ c = 3 /\ 21 <= wq -> own lo hi -> 4 * c + 2 <= hi - lo + 1 -> 11 * hi + 29 < 20 * wq ->
  ss m D (fun pv => lo + c <= pv <= hi - c) (lswPivot lt cap meanI lo hi (2 * c + 1)).
Proof.
  intros Hc Ho Hl Hb. assert (H0 : 0 <= lo) by apply Ho. unfold lswPivot.
  rewrite uw_small by lia.
  destruct (minMaxSample_ok (Wd := Wd) (hi + 1 - lo) (2 * c + 1) ltac:(lia) ltac:(lia) ltac:(lia)) as (fr & st & E & Hf & Hst & Hlast).
  rewrite E. replace (2 * c + 1 - 1) with (2 * c) in * by lia.
  set (first := lo + fr). set (n := 2 * c + 1). rewrite lswSamples_loop.
  assert (Hst' : st <= hi - lo) by nia.
  assert (Ewr : first + n * st < 2 * wq).
  { unfold first, n. destruct (minMaxSample_past (Wd := Wd) (hi + 1 - lo) (2 * c + 1) fr st _ ltac:(lia) ltac:(lia) ltac:(lia) E) as [P5 P7].
    destruct Hc as [Hc|[Hc Hc2]]; subst c; [specialize (P5 eq_refl)|specialize (P7 eq_refl)]; lia. }
  apply (ss_bind _ _ (fun _ => True)).
  { apply (ss_insLoop m D first st n); [|lia|unfold n; lia|exact Ewr|unfold n, first; lia].
    eapply own_sub; [exact Ho|unfold first; lia|lia]. }
  intros _ m1 _ _.
  assert (Em : meanI first (lo + (fr + 2 * c * st)) = first + c * st).
  { assert (2 * meanI first (lo + (fr + 2 * c * st)) = first + (lo + (fr + 2 * c * st))).
    { apply HM; [unfold first; lia|unfold first; nia|unfold first in *; lia|].
      replace (first + (lo + (fr + 2 * c * st))) with (2 * (first + c * st)) by (unfold first; lia).
      apply Z.even_spec. exists (first + c * st). reflexivity. }
    unfold first in *. lia. }
  rewrite Em.
  eapply ss_lswo; [exact Ho|unfold first; lia|lia|unfold first; lia|lia|]. intros _ m2 _.
  eapply ss_lswo; [exact Ho|lia|nia|lia|nia|]. intros _ m3 _. apply ss_ret.
  assert (lo + fr + c * st <= hi - c) by nia. unfold first. nia.
Qed.

Lemma ss_pivotLong m D lo hi : own lo hi -> 18 <= hi - lo + 1 -> 11 * hi + 29 < 20 * wq ->
  ss m D (fun pv => lo + 2 <= pv <= hi - 2) (lswPivot lt cap meanI lo hi (nsLong - 1)).
Proof. intros. apply (ss_pivot m D lo hi 2); auto; lia. Qed.

Lemma ss_pivotShort m D lo hi : own lo hi -> 6 <= hi - lo + 1 -> 11 * hi + 29 < 20 * wq ->
  ss m D (fun pv => lo + 1 <= pv <= hi - 1) (lswPivotShort lt cap lo hi).
Proof.
  intros Ho Hl Hb. assert (H0 : 0 <= lo) by apply Ho. unfold lswPivotShort. rewrite uw_small by lia.
  destruct (minMaxSample_ok (Wd := Wd) (hi + 1 - lo) 3 ltac:(lia) ltac:(lia) ltac:(lia)) as (fr & st & E & Hf & Hst & Hlast).
  rewrite E. set (first := lo + fr). set (pv := first + st). set (last := pv + st).
  assert (B : lo <= first /\ first < pv /\ pv < last /\ last <= hi) by (unfold last, pv, first; lia).
  clearbody first. clearbody pv. clearbody last.
  eapply ss_lswo; [exact Ho|lia..|]. intros _ m1 _.
  eapply ss_lswo; [exact Ho|lia..|]. intros b m2 _.
  apply (ss_bind _ _ (fun _ => True)).
  { destruct b; [eapply ss_lswo; [exact Ho|lia..|]; intros _ m3 _|]; apply ss_ret; exact I. }
  intros _ m3 _ _.
  eapply ss_lswo; [exact Ho|lia..|]. intros _ m4 _.
  eapply ss_lswo; [exact Ho|lia..|]. intros _ m5 _. apply ss_ret. lia.
Qed.

(** ** Partitioning *)

Lemma ss_partOne m D a b p : 0 <= a -> a <= b + 1 -> b < top -> 0 <= p < top -> Or p ->
  (forall i, a <= i <= b -> Or i /\ (Ow i \/ (i = p /\ sure))) ->
  ss m D (fun k => a <= k <= b + 1) (lswPartOne lt cap a p b).
Proof.
  intros Ha Hab Hb Hp Op Ho. unfold lswPartOne.
  apply (ss_loop m D (fun st => match st with
     | LStart l h | LLast l h => a <= l /\ h <= b /\ l - 1 <= h
     | LScan l h => a <= l < h /\ h <= b /\ (h = p -> ~ sure)
     | LSecond l h => a <= l < h /\ h <= b /\ (l = p -> ~ sure)
     | LNext l h => a <= l < h /\ h <= b
     | LSwap _ _ => False
     end)).
  2:{ lia. }
  intros [l h|l h|l h|l h|l h|l h] m1 _ Hst; try contradiction; cbv zeta.
  - destruct (Z.leb_spec (h - 1) l) as [C|C]; [apply ss_ret; lia|].
    eapply ss_bind; [apply ss_lsw; [lia..|apply Ho; lia|exact Op|]|].
    + destruct (proj2 (Ho (h - 1) ltac:(lia))) as [W1|[E1 S1]]; [|right; right; auto].
      destruct (proj2 (Ho l ltac:(lia))) as [W2|[E2 S2]]; [right; left; auto|]. destruct Hst as (_ & _ & Hst). exfalso. exact (Hst E2 S2).
    + intros [|] m2 _ _; apply ss_ret; intuition lia.
  - apply ss_ret. lia.
  - destruct (Z.ltb_spec l h) as [C|C]; [|apply ss_ret; lia].
    eapply ss_bind; [apply ss_lsw; [lia..|apply Ho; lia|exact Op|left; reflexivity]|]. intros [|] m2 _ H1.
    + apply ss_ret. split; [lia|]. split; [lia|]. intros E S. specialize (H1 E S). discriminate.
    + eapply ss_bind; [apply ss_lsw; [lia..|exact Op|apply Ho; lia|left; reflexivity]|]. intros [|] m3 _ H2; apply ss_ret; [|lia].
      split; [lia|]. split; [lia|]. intros E S. specialize (H2 (eq_sym E) S). discriminate.
  - eapply ss_bind; [apply ss_lsw; [lia..|exact Op|apply Ho; lia|]|].
    + destruct (proj2 (Ho l ltac:(lia))) as [W1|[E1 S1]]; [|right; right; auto].
      destruct (proj2 (Ho h ltac:(lia))) as [W2|[E2 S2]]; [right; left; auto|]. destruct Hst as (_ & _ & Hst). exfalso. exact (Hst E2 S2).
    + intros [|] m2 _ _; [apply ss_ret; lia|]. destruct (Z.leb_spec h (l + 1)); apply ss_ret; intuition lia.
  - destruct (Z.eqb_spec l h) as [E|E]; [destruct (Z.eqb_spec h p) as [E2|E2]|]; cbn [negb andb].
    + apply ss_ret. lia.
    + eapply ss_bind; [apply ss_lsw; [lia..|apply Ho; lia|exact Op|left; reflexivity]|]. intros [|] m2 _ _; apply ss_ret; lia.
    + apply ss_ret. lia.
Qed.

Lemma ss_partOwn m D lo hi p : own lo hi -> lo <= hi + 1 -> lo <= p <= hi ->
  ss m D (fun k => lo <= k <= hi + 1) (lswPartOne lt cap lo p hi).
Proof.
  intros (H1 & H2 & H3) Hl Hp. apply ss_partOne; [lia..|apply H3; lia|].
  intros i Hi. destruct (H3 i Hi). auto.
Qed.

Lemma ss_partTwo m D a l0 h0 b p : 0 <= a -> a <= l0 -> l0 < h0 -> h0 <= b -> b < top -> 0 <= p < top ->
  Or p -> (forall i, a <= i <= l0 \/ h0 <= i <= b -> Or i /\ Ow i) ->
  ss m D (fun r => a <= r <= l0 \/ h0 <= r <= b + 1) (lswPartTwo lt cap a l0 p h0 b).
Proof.
  intros Ha Hl0 Hlh Hh0 Hb Hp Op Ho. unfold lswPartTwo.
  apply (ss_loop m D (fun st => match st with
     | LStart l h | LScan l h | LSecond l h | LNext l h => a <= l <= l0 /\ h0 <= h <= b
     | LSwap _ _ | LLast _ _ => False
     end)).
  2:{ lia. }
  intros [l h|l h|l h|l h|l h|l h] m1 _ Hst; try contradiction; cbv zeta.
  - destruct (Z.ltb_spec b (h + 1)) as [C|C]; [apply ss_ret; lia|].
    eapply ss_bind; [apply ss_lsw; [lia..|apply Ho; lia|exact Op|right; left; split; apply Ho; lia]|].
    intros [|] m2 _ _; apply ss_ret; lia.
  - destruct (Z.ltb_spec (l - 1) a) as [C|C]; [apply ss_ret; lia|].
    destruct (Z.ltb_spec b (h + 1)) as [C2|C2]; apply ss_ret; lia.
  - eapply ss_bind; [apply ss_lsw; [lia..|apply Ho; lia|exact Op|left; reflexivity]|]. intros [|] m2 _ _; [apply ss_ret; lia|].
    eapply ss_bind; [apply ss_lsw; [lia..|exact Op|apply Ho; lia|left; reflexivity]|]. intros [|] m3 _ _; apply ss_ret; lia.
  - eapply ss_bind; [apply ss_lsw; [lia..|exact Op|apply Ho; lia|right; left; split; apply Ho; lia]|].
    intros [|] m2 _ _; [apply ss_ret; lia|].
    destruct (Z.ltb_spec (l - 1) a); apply ss_ret; lia.
Qed.

Lemma ss_gapLow m D a b r k p : own a b -> a - 1 <= r -> r < k -> k <= b + 1 -> a <= p <= b ->
  ss m D (fun k' => a <= k' <= k) (lswGapLow lt cap a r k p).
Proof.
  intros Ho Hr Hrk Hk Hp. unfold lswGapLow.
  apply (ss_loop m D (fun '(r', k', p') => a - 1 <= r' < k' /\ k' <= k /\ a <= p' <= b)).
  2:{ lia. }
  intros [[r' k'] p'] m1 _ Hst. destruct (Z.leb_spec a r') as [C|C]; [|apply ss_ret; lia].
  eapply ss_lswo; [exact Ho|lia..|]. intros [|] m2 _; cbv zeta; apply ss_ret;
    [destruct (k' - 1 =? p')|]; lia.
Qed.

Lemma ss_gapHigh m D a b r k p : own a b -> k <= r -> r <= b + 1 -> a <= k -> a <= p <= b ->
  ss m D (fun k' => k <= k' <= b + 1) (lswGapHigh lt cap b r k p).
Proof.
  intros Ho Hr Hrk Hk Hp. unfold lswGapHigh.
  apply (ss_loop m D (fun '(r', k', p') => k <= k' <= r' /\ r' <= b + 1 /\ a <= p' <= b)).
  2:{ lia. }
  intros [[r' k'] p'] m1 _ Hst. destruct (Z.leb_spec r' b) as [C|C]; [|apply ss_ret; lia].
  eapply ss_lswo; [exact Ho|lia..|]. intros [|] m2 _; cbv zeta; apply ss_ret;
    [destruct (k' =? p')|]; lia.
Qed.

(** ** short, and long without syncVar *)

Lemma ss_short : forall m lo hi, maxIns < hi - lo + 1 -> own lo hi -> 11 * hi + 29 < 20 * wq ->
  ss m (Z.to_nat (Z.log2 (hi - lo + 1))) (fun _ => True) (lswShort lt cap tn lo hi).
Proof.
  intro m. induction m as [m IH] using lt_wf_ind. intros lo hi Hs Ho Hb. rewrite lshort_unfold.
  apply (ss_loop m _ (fun st => match st with
    | inl (lo1, hi1) => lo <= lo1 /\ hi1 <= hi /\ maxIns < hi1 - lo1 + 1
    | inr (lo1, hi1, l1, h1, no) => lo <= lo1 <= hi1 /\ hi1 <= hi /\ lo <= l1 <= h1 /\ h1 <= hi /\ no = hi1 - lo1
    end)).
  2:{ lia. }
  intros [[lo1 hi1]|[[[[lo1 hi1] l1] h1] no]] m1 Hm1 Hx; cbn [lshortBody].
  - destruct Hx as (X1 & X2 & X3). assert (Ho1 := own_sub _ _ lo1 hi1 Ho X1 X2).
    eapply ss_bind; [apply ss_pivotShort; [exact Ho1|lia|lia]|]. cbv beta. intros pv m2 Hm2 Hpv.
    eapply ss_bind; [apply ss_partOwn; [eapply own_sub; [exact Ho1|lia|lia]|lia|lia]|]. cbv beta. intros l m3 Hm3 Hl.
    destruct (lswSplit_ok lo1 hi1 l ltac:(lia)) as (l' & h' & lo' & hi' & E & Hsp & B1 & B2 & B3 & B4 & B5 & B6).
    rewrite E. clear E.
    destruct (isSplit_reg (rng lo1 hi1) (l - lo1) _ _ ltac:(cbn [rng len]; lia) Hsp) as (Raq & Rar & Rdis & Haq & Har & Hsum & Hle & Hoff).
    cbn [rng len off] in Haq, Har, Hsum, Hle.
    destruct (Z.leb_spec maxIns (h' - l')) as [C|C].
    + assert (Lq := log2_half (h' - l' + 1) (hi - lo + 1) ltac:(lia) ltac:(lia)).
      assert (Lq0 := Z.log2_nonneg (h' - l' + 1)).
      apply (ss_call _ _ (fun _ => True)); [lia| |].
      * intros m5 Hm5. cbn [lswBody]. eapply ss_conseq; [apply (IH m5 ltac:(lia) l' h'); [lia|eapply own_sub; [exact Ho1|lia|lia]|lia]|lia|auto].
      * intros m5 Hm5 _. apply ss_ret. lia.
    + apply ss_ret. lia.
  - destruct Hx as (X1 & X2 & X3 & X4 & ->).
    apply (ss_bind _ _ (fun _ => True)); [apply ss_insertion; [eapply own_sub; [exact Ho|lia|lia]|lia|lia]|]. intros _ m2 Hm2 _.
    destruct (Z.leb_spec maxIns (hi1 - lo1)) as [C|C]; [apply ss_ret; lia|].
    destruct (Z.eqb_spec lo1 l1); cbn [negb]; apply ss_ret; [exact I|lia].
Qed.

Lemma ss_small m lo hi : own lo hi -> lo <= hi -> 11 * hi + 29 < 20 * wq ->
  ss m (Z.to_nat (Z.log2 (hi - lo + 1) + 1)) (fun _ => True)
    (if maxIns <=? hi - lo then Call (LShort lo hi) (Ret tt) else lswInsertion lt cap lo hi).
Proof.
  intros Ho H1 Hb. assert (L0 := Z.log2_nonneg (hi - lo + 1)).
  destruct (Z.leb_spec maxIns (hi - lo)) as [C|C]; [|apply ss_insertion; assumption].
  apply (ss_call _ _ (fun _ => True)); [lia| |intros; apply ss_ret; exact I].
  intros m' _. cbn [lswBody]. eapply ss_conseq; [apply ss_short; [lia|assumption|assumption]|lia|auto].
Qed.

Lemma ss_long : forall m lo hi, maxRec < hi - lo + 1 -> own lo hi -> 11 * hi + 29 < 20 * wq ->
  ss m (Z.to_nat (Z.log2 (hi - lo + 1) + 1)) (fun _ => True) (lswLong lt cap tn meanI lo hi false).
Proof.
  intro m. induction m as [m IH] using lt_wf_ind. intros lo hi Hs Ho Hb. rewrite llong_unfold.
  apply (ss_loop m _ (fun '(lo1, hi1) => lo <= lo1 /\ hi1 <= hi /\ maxRec < hi1 - lo1 + 1)).
  2:{ lia. }
  intros [lo1 hi1] m1 Hm1 (X1 & X2 & X3). unfold llongBody at 1. assert (Ho1 := own_sub _ _ lo1 hi1 Ho X1 X2).
  eapply ss_bind; [apply ss_pivotLong; [exact Ho1|lia|lia]|]. cbv beta. intros pv m2 Hm2 Hpv.
  eapply ss_bind; [apply ss_partOwn; [eapply own_sub; [exact Ho1|lia|lia]|lia|lia]|]. cbv beta. intros l m3 Hm3 Hl.
  destruct (lswSplit_ok lo1 hi1 l ltac:(lia)) as (l' & h' & lo' & hi' & E & Hsp & B1 & B2 & B3 & B4 & B5 & B6).
  rewrite E. clear E.
  destruct (isSplit_reg (rng lo1 hi1) (l - lo1) _ _ ltac:(cbn [rng len]; lia) Hsp) as (Raq & Rar & Rdis & Haq & Har & Hsum & Hle & Hoff).
  cbn [rng len off] in Haq, Har, Hsum, Hle.
  assert (Lq := log2_half (h' - l' + 1) (hi - lo + 1) ltac:(lia) ltac:(lia)).
  assert (Lr : Z.log2 (hi' - lo' + 1) <= Z.log2 (hi - lo + 1)) by (apply Z.log2_le_mono; lia).
  assert (Lq0 := Z.log2_nonneg (h' - l' + 1)). assert (Lr0 := Z.log2_nonneg (hi' - lo' + 1)).
  assert (Oq : own l' h') by (eapply own_sub; [exact Ho1|lia|lia]).
  assert (Oa : own lo' hi') by (eapply own_sub; [exact Ho1|lia|lia]).
  destruct (Z.ltb_spec (h' - l') maxRec) as [Cc|Cc].
  - apply (ss_bind _ _ (fun _ => True)); [eapply ss_conseq; [apply (ss_small m3 l' h'); [exact Oq|lia|lia]|lia|auto]|].
    intros _ m4 Hm4 _. destruct (Z.leb_spec maxRec (hi' - lo')) as [Cr|Cr].
    + apply ss_ret. lia.
    + apply (ss_call _ _ (fun _ => True)); [lia| |intros; apply ss_ret; exact I].
      intros m5 _. cbn [lswBody]. eapply ss_conseq; [apply (ss_short m5 lo' hi'); [lia|exact Oa|lia]|lia|auto].
  - apply (ss_bind _ _ (fun b => b = true)); [apply ss_ret; reflexivity|]. intros full m4 Hm4 ->.
    apply (ss_call _ _ (fun _ => True)); [lia| |].
    + intros m5 Hm5. cbn [lswBody]. eapply ss_conseq; [apply (IH m5 ltac:(lia) l' h'); [lia|exact Oq|lia]|lia|auto].
    + intros m5 Hm5 _. apply ss_ret. lia.
Qed.

End Code.

(** ** Goroutines *)

(** Sequential code inside a goroutine that has the elements of [s]. *)
Notation sr s := (ss (Or := reg s) (Ow := reg s) (sure := False)).
Notation hasr s := (has (Or := reg s) (Ow := reg s) (sure := False)).

Lemma hasr_of s g : (forall i, reg s i -> dom g i /\ rd g i) -> hasr s g.
Proof.
  intro H. split; [intros i Hi; right; apply H; exact Hi|]. split; [|tauto].
  intros i Hi. split; [|right]; apply H; exact Hi.
Qed.

Lemma own_self lo hi : 0 <= lo -> hi < top -> own (Or := reg (rng lo hi)) (Ow := reg (rng lo hi)) lo hi.
Proof. intros H1 H2. split; [exact H1|]. split; [exact H2|]. intros i Hi. unfold reg, rng. cbn [off len]. lia. Qed.

Lemma yp_ss (Or Ow : cells) (sure : Prop) m D1 D {A} (Post : A -> Prop) (Q : A -> gst T -> Prop) c g :
  ss (Or := Or) (Ow := Ow) (sure := sure) m D1 Post c -> live g -> has (Or := Or) (Ow := Ow) (sure := sure) g -> (D1 <= D)%nat ->
  (forall a g', Post a -> moved g g' -> Q a g') -> yp m D Q c g.
Proof.
  intros H Hg Hh HD HQ. eapply yp_conseq; [exact (H g Hg Hh)|exact HD|]. cbv beta. intros a g' [H1 H2]. auto.
Qed.

Lemma yp_bss (Or Ow : cells) (sure : Prop) m D1 D {A B} (Post : B -> Prop) (Q : A -> gst T -> Prop) (c : cmd lproc T B) k g :
  ss (Or := Or) (Ow := Ow) (sure := sure) m D1 Post c -> live g -> has (Or := Or) (Ow := Ow) (sure := sure) g -> (D1 <= D)%nat ->
  (forall a g' m', (m' <= m)%nat -> Post a -> moved g g' -> yp m' D Q (k a) g') -> yp m D Q (Bind c k) g.
Proof.
  intros H Hg Hh HD HQ. eapply yp_bind with (Q1 := fun a g' => Post a /\ moved g g').
  - eapply yp_ss; [exact H|exact Hg|exact Hh|exact HD|]. auto.
  - intros b g' m' Hm [H1 H2]. apply HQ; assumption.
Qed.

(** Nothing is promised about the elements. *)
Definition loose (a : act T) : Prop := idle a /\ forall w, a_P a w.

(** It went on with cells of [R], handing over some of them. *)
Definition went (R : cells) (g : gst T) (a : act T) (g' : gst T) : Prop :=
  exists a', md g' = MAct a' /\ a_main a' = a_main a /\ loose a' /\ forall i, dom g i /\ rd g i -> ~ R i -> dom g' i /\ rd g' i.

Lemma went_moved R g a g' : md g = MAct a -> loose a -> moved g g' -> went R g a g'.
Proof.
  intros Hmd Hl (v & x & ->). exists a. split; [exact Hmd|]. split; [reflexivity|]. split; [exact Hl|]. intros i Hi _. exact Hi.
Qed.

(** sortyLsw.go:271-314, func long with a syncVar. *)
Lemma yp_blong : forall m lo hi g a, maxRec < hi - lo + 1 -> 0 <= lo -> hi < top -> 11 * hi + 29 < 20 * wq ->
  md g = MAct a -> loose a -> (forall i, reg (rng lo hi) i -> dom g i /\ rd g i) ->
  (Z.to_nat (Z.log2 (hi - lo + 1) + 2) <= Dm)%nat ->
  yp m (Z.to_nat (Z.log2 (hi - lo + 1) + 1)) (fun _ g' => went (reg (rng lo hi)) g a g') (Loop (lo, hi) (llongBody lt cap tn meanI true)) g.
Proof.
  intro m. induction m as [m IH] using lt_wf_ind. intros lo hi g a Hs H0 Hcap Hb Hmd Hloose Hdom HDm.
  set (s := rng lo hi) in *. assert (Es : len s = hi - lo + 1) by reflexivity. rewrite <- Es in *.
  assert (Hlive : live g) by (unfold live; rewrite Hmd; exact I).
  assert (Os : own (Or := reg s) (Ow := reg s) lo hi) by (apply own_self; assumption).
  apply yp_loop_step. intros m1 Hm1. unfold llongBody at 1.
  eapply (yp_bss (reg s) (reg s) False m1 O); [apply (ss_pivotLong m1 O lo hi); [exact Os|lia|lia]|exact Hlive|apply hasr_of; exact Hdom|lia|].
  cbv beta. intros pv g1 m2 Hm2 Hpv Hg1.
  eapply (yp_bss (reg s) (reg s) False m2 O); [apply (ss_partOwn m2 O (lo + 1) (hi - 1) pv); [eapply own_sub; [exact Os|lia|lia]|lia|lia]
    |eapply moved_live; eassumption|eapply moved_has; [exact Hg1|apply hasr_of; exact Hdom]|lia|].
  cbv beta. intros l g2 m3 Hm3 Hl Hg2. assert (Hg3 := moved_trans _ _ _ Hg1 Hg2). clear Hg1 Hg2 g1.
  assert (Hk : 1 <= l - lo <= len s - 1) by lia.
  destruct (lswSplit_ok lo hi l ltac:(lia)) as (l' & h' & lo' & hi' & E & Hsp & B1 & B2 & B3 & B4 & B5 & B6).
  rewrite E. clear E. set (k := l - lo) in *. fold s in Hsp.
  set (aq := rng l' h') in *. set (ar := rng lo' hi') in *.
  assert (Eq : len aq = h' - l' + 1) by reflexivity. assert (Ea : len ar = hi' - lo' + 1) by reflexivity.
  destruct (isSplit_reg s k aq ar Hk Hsp) as (Raq & Rar & Rdis & Haq & Har & Hsum & Hle & Hoff).
  assert (Lq := log2_half (len aq) (len s) Haq ltac:(lia)).
  assert (Lr : Z.log2 (len ar) <= Z.log2 (len s)) by (apply Z.log2_le_mono; lia).
  assert (Lq0 := Z.log2_nonneg (len aq)). assert (Lr0 := Z.log2_nonneg (len ar)).
  assert (Hlive2 : live g2) by (eapply moved_live; eassumption).
  destruct Hg3 as (v2 & x2 & ->). set (g2 := Gst (dom g) (rd g) v2 (md g) x2) in *.
  assert (Hmov : forall g3, moved g2 g3 -> moved g g3) by (intros g3 (v & x & ->); exists v, x; reflexivity).
  assert (Hgo : forall m5 g3, (m5 < m)%nat -> went (reg aq) g a g3 -> maxRec < len ar ->
    yp m5 (Z.to_nat (Z.log2 (len s) + 1)) (fun _ g' => went (reg s) g a g') (Loop (lo', hi') (llongBody lt cap tn meanI true)) g3).
  { intros m5 g3 Hm5 (a2 & Em & Eam & Hl2 & HD) Hbig.
    eapply yp_conseq; [apply (IH m5 Hm5 lo' hi') with (a := a2); [lia|lia|lia|lia|exact Em|exact Hl2| |rewrite <- Ea; lia]|rewrite <- Ea; lia|].
    { fold ar. intros i Hr. apply HD; [auto|]. intro Hq. exact (Rdis i Hq Hr). }
    cbv beta. fold ar. intros _ g4 (a3 & Em3 & Eam3 & Hl3 & HD3).
    exists a3. split; [exact Em3|]. split; [congruence|]. split; [exact Hl3|].
    intros i Hi Hn. apply HD3; [apply HD; auto|auto]. }
  destruct (Z.ltb_spec (h' - l') maxRec) as [Cc|Cc].
  - eapply (yp_bss (reg aq) (reg aq) False); [apply (ss_small m3 l' h'); [apply own_self; lia|lia|lia]|exact Hlive2|apply hasr_of; intros i Hi; apply Hdom; auto|rewrite <- Eq; lia|].
    intros _ g3 m4 Hm4 _ Hg3. apply Hmov in Hg3.
    destruct (Z.leb_spec maxRec (hi' - lo')) as [Cr|Cr].
    + apply yp_ret. intros m6 Hm6. apply Hgo; [exact Hm6|apply went_moved; assumption|lia].
    + eapply yp_call with (Q1 := fun _ g' => moved g g'); [lia|eapply moved_live; eassumption| |].
      * intros m6 _. cbn [lswBody]. eapply (yp_ss (reg ar) (reg ar) False); [apply (ss_short m6 lo' hi'); [lia|apply own_self; lia|lia]
          |eapply moved_live; eassumption|eapply moved_has; [exact Hg3|apply hasr_of; intros i Hi; apply Hdom; auto]|rewrite <- Ea; lia|].
        intros _ g4 _ Hg4. eapply moved_trans; eassumption.
      * intros g4 m6 Hm6 Hg4. apply yp_ret. apply went_moved; assumption.
  - destruct Hloose as [Hidle HPa].
    unfold lswGorFull. eapply yp_bind with (Q1 := fun b g' => exists mg ng, b = (mg <=? ng) /\
      g' = Gst (dom g) (rd g) v2 (MAct (settok a (ng <? mg))) mg).
    { apply yp_loadmax; [exact Hlive2|]. intros mg m5 Hm5 Hmg.
      eapply yp_loadgor; [exact Hmd|apply Hidle|apply Hidle|]. intros ng m6 Hm6.
      apply yp_ret. exists mg, ng. split; reflexivity. }
    intros full g3 m5 Hm5 (mg & ng & -> & ->). set (a1 := settok a (ng <? mg)).
    assert (Hidle1 : idle a1) by exact Hidle.
    destruct (Z.leb_spec mg ng) as [Cf|Cf].
    + eapply yp_call with (Q1 := fun _ g' => went (reg aq) g a g'); [lia|exact I| |].
      * intros m6 Hm6. cbn [lswBody]. rewrite llong_unfold.
        eapply yp_conseq; [apply (IH m6 ltac:(lia) l' h') with (a := a1); [lia|lia|lia|lia|reflexivity|split; [exact Hidle1|exact HPa]| |rewrite <- Eq; lia]|rewrite <- Eq; lia|].
        { cbn [dom rd]. fold aq. intros i Hr. apply Hdom. auto. }
        auto.
      * intros g3 m6 Hm6 Hwent. apply yp_ret. intros m7 Hm7. apply Hgo; [exact Hm7|exact Hwent|lia].
    + eapply yp_addinc; [reflexivity|apply Hidle1| |apply Hidle1| |].
      { cbn. destruct (Z.ltb_spec ng mg); [reflexivity|lia]. }
      { apply (ltwice_of tn HIns HRec aq ar); [lia|lia|intros i Hi; apply Hdom; auto|intros i Hi; apply Hdom; auto|exact Rdis]. }
      intros z m6 Hm6.
      eapply yp_forkcredit with (d1 := reg ar) (P1 := fun _ => True) (P2 := fun _ => True);
        [reflexivity|reflexivity|apply Hidle1| | | | | | ].
      { intros i Hr. apply Hdom. auto. }
      { apply (lmany_of tn HIns HRec ar); [lia|auto]. }
      { apply (lmany_of tn HIns HRec aq); [lia|]. intros i Hi. split; [apply Hdom; auto|]. intro Hi'. exact (Rdis i Hi Hi'). }
      { intros w _ _. apply HPa. }
      * (* the new goroutine *)
        intros m7 Hm7. cbn [lswBody]. unfold lswGLong.
        eapply yp_call with (Q1 := fun _ g' => exists a2, md g' = MAct a2 /\ a_main a2 = None /\ loose a2); [lia|exact I| |].
        { intros m8 Hm8. cbn [lswBody]. rewrite llong_unfold.
          eapply yp_conseq; [apply (IH m8 ltac:(lia) lo' hi') with (a := Act None (fun _ => True) false false None);
            [lia|lia|lia|lia|reflexivity|split; [split; reflexivity|intro; exact I]|cbn [dom rd]; auto|rewrite <- Ea; lia]|rewrite <- Ea; lia|].
          cbv beta. intros _ g3 (a2 & Em & Ea2 & Hl2 & _). exists a2. auto. }
        intros g3 m8 Hm8 (a2 & Em & Ea2 & Hi & HP).
        eapply yp_adddec; [exact Em|apply Hi|apply Hi|intros w _; apply HP|].
        intros z' m9 Hm9 Hz'. unfold signed_off. rewrite Ea2. destruct (Z.eqb_spec z' 0).
        -- apply yp_sendlast; [reflexivity|]. intros. apply yp_ret. reflexivity.
        -- apply yp_ret. reflexivity.
      * (* going on with the shorter range *)
        intros m7 Hm7. apply yp_ret. intros m8 Hm8. cbn [setval setseen setmd dom rd val md seen].
        set (a2 := forked (setcredit a1) (fun _ => True)).
        eapply yp_conseq; [apply (IH m8 Hm8 l' h') with (a := a2); [lia|lia|lia|lia|reflexivity|split; [split; [reflexivity|apply Hidle1]|intro; exact I]| |rewrite <- Eq; lia]|rewrite <- Eq; lia|].
        { cbn [dom rd]. fold aq. intros i Hr. destruct (Hdom i (Raq i Hr)). pose proof (Rdis i Hr). split; split; assumption. }
        cbv beta. fold aq. intros _ g3 (a3 & Em3 & Eam3 & Hl3 & HD3).
        exists a3. split; [exact Em3|]. split; [exact Eam3|]. split; [exact Hl3|].
        intros i [Hi Hj] Hn. apply HD3; [cbn; split; (split; [assumption|auto])|auto].
Qed.

(** sortyLsw.go:260-269, func gLong started on its own range. *)
Lemma yp_bGLong m lo hi v : maxRec < hi - lo + 1 -> 0 <= lo -> hi < top -> 11 * hi + 29 < 20 * wq ->
  (Z.to_nat (Z.log2 (hi - lo + 1) + 2) <= Dm)%nat ->
  yp m Dm QTS (body (LGLong lo hi)) (Gst (reg (rng lo hi)) (reg (rng lo hi)) v (MAct (Act None (fun _ => True) false false None)) 0).
Proof.
  intros Hs H0 Hc Hb HDm. assert (L0 := Z.log2_nonneg (hi - lo + 1)). cbn [lswBody]. unfold lswGLong.
  eapply yp_call with (Q1 := fun _ g' => exists a2, md g' = MAct a2 /\ a_main a2 = None /\ loose a2); [lia|exact I| |].
  { intros m8 Hm8. cbn [lswBody]. rewrite llong_unfold.
    eapply yp_conseq; [apply (yp_blong m8 lo hi) with (a := Act None (fun _ => True) false false None);
      [lia|lia|lia|lia|reflexivity|split; [split; reflexivity|intro; exact I]|cbn [dom rd]; auto|lia]|lia|].
    cbv beta. intros _ g3 (a2 & Em & Ea & Hl & _). exists a2. auto. }
  intros g3 m8 Hm8 (a2 & Em & Ea & Hi & HP).
  eapply yp_adddec; [exact Em|apply Hi|apply Hi|intros w _; apply HP|].
  intros z' m9 Hm9 Hz'. unfold signed_off. rewrite Ea. destruct (Z.eqb_spec z' 0).
  - apply yp_sendlast; [reflexivity|]. intros. apply yp_ret. reflexivity.
  - apply yp_ret. reflexivity.
Qed.

(** sortyLsw.go:169-206, func partCon. *)
Lemma yp_bPartCon m D lo hi g a : 21 <= wq -> 2 * (maxRec + 1) <= hi - lo + 1 -> 0 <= lo -> hi < top -> 11 * hi + 29 < 20 * wq ->
  md g = MAct a -> a_main a <> None -> a_tok a = true -> loose a -> (forall i, reg (rng lo hi) i -> dom g i /\ rd g i) ->
  yp m D (fun k g' => lo + 1 <= k <= hi /\ exists a', md g' = MAct a' /\ a_main a' = a_main a /\
          a_tok a' = true /\ loose a' /\ forall i, dom g i /\ rd g i -> dom g' i /\ rd g' i)
    (lswPartCon lt cap meanI lo hi) g.
Proof.
  intros Hwq Htw H0 Hcap Hb Hmd Hmain Htok [Hidle HPa] Hdom. set (s := rng lo hi) in *.
  assert (Hlive : live g) by (unfold live; rewrite Hmd; exact I).
  assert (Os : own (Or := reg s) (Ow := reg s) lo hi) by (apply own_self; assumption).
  assert (Rs : forall i, lo <= i <= hi -> reg s i) by (intros i Hi; unfold reg, s, rng; cbn [off len]; lia).
  unfold lswPartCon. change (nsConc - 1) with (2 * 3 + 1) at 1.
  eapply (yp_bss (reg s) (reg s) False m O); [apply (ss_pivot m O lo hi 3); [right; split; [reflexivity|exact Hwq]|exact Os|lia|lia]|exact Hlive|apply hasr_of; exact Hdom|lia|].
  cbv beta. intros pv g1 m1 Hm1 Hpv (v1 & x1 & ->).
  cbv zeta. assert (Hl : lo + 1 <= meanI (lo + 1) pv < pv) by (apply HmeanI; lia).
  assert (Hh : pv < meanI pv (hi - 1) < hi - 1).
  { split; [apply HS; lia|apply HmeanI; lia]. }
  set (l := meanI (lo + 1) pv) in *. set (h := meanI pv (hi - 1)) in *.
  clearbody l h.
  set (R2 := fun i => l + 1 <= i <= h - 1). set (d2 := fun i => R2 i /\ (lax = true \/ i <> pv)).
  assert (Dom2 : forall i, R2 i -> dom g i /\ rd g i) by (intros i Hi; apply Hdom, Rs; unfold R2 in Hi; lia).
  eapply yp_forkpart with (dj := R2) (d2 := d2) (r2 := R2) (post := fun k _ => l + 1 <= k <= h);
    [exact Hmd|exact Hmain|apply Hidle|exact Htok|apply Hidle|intros i Hi; apply Dom2; exact Hi|intros i [Hi _]; exact Hi|auto| |intro i; unfold R2; lia| | ].
  { apply (ltwice_one tn HIns HRec s); [unfold s; cbn [rng len]; lia|intros i Hi; apply Hdom; exact Hi]. }
  { (* the partner *)
    intros m3 Hm3. cbn [lswBody]. unfold lswGPartOne.
    eapply (yp_bss R2 d2 (lax = false) m3 O); [apply (ss_partOne m3 O (l + 1) (h - 1) pv); [lia|lia|lia|lia|unfold R2; lia|]|exact I| |lia|].
    { intros i Hi. split; [exact Hi|]. unfold d2. destruct lax; [left; split; [exact Hi|left; reflexivity]|].
      destruct (Z.eq_dec i pv) as [E|E]; [right; auto|left; split; [exact Hi|right; exact E]]. }
    { split; [intros i Hi; right; exact Hi|]. split; [intros i Hi; split; [exact Hi|right; exact (proj1 Hi)]|].
      intro E. split; [exact E|]. eexists. reflexivity. }
    cbv beta. intros k g3 m4 Hm4 Hk (v3 & x3 & ->).
    eapply yp_sendpart; [reflexivity| |intros; apply yp_ret; reflexivity].
    intros w _. cbn [j_post]. lia. }
  intros m3 Hm3. cbn [setseen dom rd val md seen].
  set (g2 := Gst _ _ _ _ _).
  set (outer := fun i => lo + 1 <= i <= l \/ h <= i <= hi - 1).
  assert (Hh2 : has (Or := fun i => outer i \/ i = pv) (Ow := outer) (sure := False) g2).
  { assert (HO : forall i, outer i -> dom g2 i /\ canRead lax g2 i).
    { intros i Hi. destruct (Hdom i (Rs i ltac:(unfold outer in Hi; lia))) as [A B].
      assert (N : ~ R2 i) by (unfold outer in Hi; unfold R2; lia).
      split; [split; [exact A|exact N]|]. right. split; [exact B|]. intros [N' _]. exact (N N'). }
    split; [|split; [exact HO|tauto]]. intros i [Hi| ->]; [apply HO; exact Hi|].
    destruct lax eqn:El; [left; split; [reflexivity|]; eexists; eexists; split; reflexivity|].
    right. split; [apply Hdom, Rs; lia|]. unfold d2. intros [_ [N|N]]; [discriminate|exact (N eq_refl)]. }
  eapply (yp_bss (fun i => outer i \/ i = pv) outer False m3 O); [apply (ss_partTwo m3 O (lo + 1) l h (hi - 1) pv); [lia|lia|lia|lia|lia|lia|right; reflexivity|]|exact I|exact Hh2|lia|].
  { intros i Hi. split; [left|]; exact Hi. }
  cbv beta. intros r g3 m4 Hm4 Hr (v3 & x3 & ->). clear Hh2.
  eapply yp_recvjoin; [reflexivity|reflexivity|].
  cbn [g2 setjoin dom rd val md seen j_post j_D]. intros km w m5 Hm5 _ Hkm.
  set (g4 := Gst _ _ _ _ _).
  assert (Hg4 : forall k g5, lo + 1 <= k <= hi -> moved g4 g5 -> lo + 1 <= k <= hi /\
     exists a', md g5 = MAct a' /\ a_main a' = a_main a /\
          a_tok a' = true /\ loose a' /\ forall i, dom g i /\ rd g i -> dom g5 i /\ rd g5 i).
  { intros k g5 Hk (v5 & x5 & ->). split; [exact Hk|]. exists (setjoin a None). split; [reflexivity|]. split; [reflexivity|].
    split; [exact Htok|]. split; [split; [split; [apply Hidle|reflexivity]|exact HPa]|].
    cbn. unfold union, minus, d2. intros i [Hi Hj]. assert (Hc : R2 i \/ ~ R2 i) by (unfold R2; lia). tauto. }
  assert (H4 : forall i, reg s i -> dom g4 i /\ rd g4 i).
  { intros i Hi. destruct (Hg4 (lo + 1) g4 ltac:(lia) (moved_refl g4)) as (_ & _ & _ & _ & _ & _ & Hx). apply Hx. apply Hdom. exact Hi. }
  destruct (Z.ltb_spec r pv) as [C|C].
  - eapply (yp_ss (reg s) (reg s) False m5 O); [apply (ss_gapLow m5 O (lo + 1) (hi - 1) r km pv); [eapply own_sub; [exact Os|lia|lia]|lia|lia|lia|lia]|exact I|apply hasr_of; exact H4|lia|]. cbv beta. intros k g5 Hk Hg5. apply Hg4; [lia|exact Hg5].
  - eapply (yp_ss (reg s) (reg s) False m5 O); [apply (ss_gapHigh m5 O (lo + 1) (hi - 1) r km pv); [eapply own_sub; [exact Os|lia|lia]|lia|lia|lia|lia]|exact I|apply hasr_of; exact H4|lia|]. cbv beta. intros k g5 Hk Hg5. apply Hg4; [lia|exact Hg5].
Qed.

(** ** The concurrent part of Sort *)

Definition bInv (ar : slice) (g : gst T) (a : act T) : Prop :=
  md g = MAct a /\ a_main a = Some (fun _ => True) /\ loose a /\ (forall i, reg ar i -> dom g i /\ rd g i) /\
  maxRec < len ar.

Definition bPost lo hi (p : Z * Z) (g' : gst T) : Prop :=
  lo <= fst p /\ snd p <= hi /\ exists a', bInv (rng (fst p) (snd p)) g' a'.

Lemma yp_bMainLoop : forall m lo hi g a, 2 * (maxRec + 1) <= hi - lo + 1 -> 0 <= lo -> hi < top -> 11 * hi + 29 < 20 * wq ->
  bInv (rng lo hi) g a -> a_tok a = true ->
  (Z.to_nat (Z.log2 (hi - lo + 1) + 2) <= Dm)%nat ->
  yp m (Z.to_nat (Z.log2 (hi - lo + 1) + 2)) (bPost lo hi) (Loop (lo, hi) (lmainBody lt cap tn meanI)) g.
Proof.
  intro m. induction m as [m IH] using lt_wf_ind. intros lo hi g a Hs H0 Hcap Hb Hinv Htok HDm.
  set (s := rng lo hi) in *. assert (Es : len s = hi - lo + 1) by reflexivity. rewrite <- Es in *.
  destruct Hinv as (Hmd & Hmain & Hloose & Hdom & Hlen).
  apply yp_loop_step. intros m1 Hm1. unfold lmainBody at 1.
  eapply yp_bind; [apply (yp_bPartCon m1 _ lo hi g a); [lia|lia|lia|lia|lia|exact Hmd|congruence|exact Htok|exact Hloose|exact Hdom]|].
  cbv beta. intros l g1 m2 Hm2 (Hl & a1 & Hmd1 & Hmain1 & Htok1 & Hloose1 & Hd1).
  assert (Hlive1 : live g1) by (unfold live; rewrite Hmd1; exact I).
  assert (Hk : 1 <= l - lo <= len s - 1) by lia.
  destruct (lswSplit_ok lo hi l ltac:(lia)) as (l' & h' & lo' & hi' & E & Hsp & B1 & B2 & B3 & B4 & B5 & B6).
  rewrite E. clear E. set (k := l - lo) in *. fold s in Hsp.
  set (aq := rng l' h') in *. set (ar := rng lo' hi') in *.
  assert (Eq : len aq = h' - l' + 1) by reflexivity. assert (Ea : len ar = hi' - lo' + 1) by reflexivity.
  destruct (isSplit_reg s k aq ar Hk Hsp) as (Raq & Rar & Rdis & Haq & Har & Hsum & Hle & Hoff).
  assert (Lq := log2_half (len aq) (len s) Haq ltac:(lia)).
  assert (Lr : Z.log2 (len ar) <= Z.log2 (len s)) by (apply Z.log2_le_mono; lia).
  assert (Lq0 := Z.log2_nonneg (len aq)). assert (Lr0 := Z.log2_nonneg (len ar)).
  assert (Hbig : maxRec < len ar) by lia.
  assert (Hgo : forall m4 g2 a2, (m4 < m)%nat -> bInv ar g2 a2 ->
    yp m4 (Z.to_nat (Z.log2 (len s) + 2))
      (fun r g' => match r with
         | inl s' => forall m'', (m'' < m)%nat -> yp m'' (Z.to_nat (Z.log2 (len s) + 2)) (bPost lo hi)
             (Loop s' (lmainBody lt cap tn meanI)) g'
         | inr p => bPost lo hi p g'
         end)
      (if hi' - lo' <=? lswConc tn then Ret (inr (lo', hi'))
       else Bind lswGorFull (fun full : bool => if full then Ret (inr (lo', hi')) else Ret (inl (lo', hi')))) g2).
  { intros m4 g2 a2 Hm4 Hi2.
    rewrite (lswConc_plain tn HIns HRec HRec2). destruct (Z.leb_spec (hi' - lo') (2 * maxRec)) as [Cs|Cs].
    { apply yp_ret. split; [cbn; lia|]. split; [cbn; lia|]. exists a2; exact Hi2. }
    assert (Hi2' := Hi2). destruct Hi2' as (Hmd2 & Hmain2 & Hloose2 & Hdom2 & Hlen2).
    unfold lswGorFull. eapply yp_bind with (Q1 := fun b g' => exists mg ng, b = (mg <=? ng) /\
      g' = setmd (setseen g2 mg) (MAct (settok a2 (ng <? mg)))).
    { apply yp_loadmax; [unfold live; rewrite Hmd2; exact I|]. intros mg m5 Hm5 Hmg.
      eapply yp_loadgor; [exact Hmd2|apply Hloose2|apply Hloose2|]. intros ng m6 Hm6.
      apply yp_ret. exists mg, ng. split; reflexivity. }
    intros full g3 m5 Hm5 (mg & ng & -> & ->).
    set (a3 := settok a2 (ng <? mg)).
    set (g3 := setmd (setseen g2 mg) (MAct a3)).
    assert (Hi3 : bInv ar g3 a3).
    { split; [reflexivity|]. split; [exact Hmain2|]. split; [exact Hloose2|]. split; [exact Hdom2|exact Hlen2]. }
    destruct (Z.leb_spec mg ng) as [Cf|Cf]; apply yp_ret.
    - split; [cbn; lia|]. split; [cbn; lia|]. exists a3; exact Hi3.
    - intros m6 Hm6. eapply yp_conseq; [apply (IH m6 Hm6 lo' hi') with (a := a3); [lia|lia|lia|lia|exact Hi3| |rewrite <- Ea; lia]|rewrite <- Ea; lia|].
      + cbn. destruct (Z.ltb_spec ng mg); [reflexivity|lia].
      + cbv beta. intros [lo2 hi2] g' (Hl1 & Hl2 & Ha). cbn [fst snd] in *. split; [cbn; lia|]. split; [cbn; lia|exact Ha]. }
  destruct (Z.leb_spec maxRec (h' - l')) as [Cc|Cc].
  - (* a goroutine for the shorter range *)
    eapply yp_bind with (Q1 := fun _ g' => bInv ar g' (forked (setcredit a1) (fun _ => True))).
    { eapply yp_addinc; [exact Hmd1|apply Hloose1|exact Htok1|apply Hloose1| |].
      { apply (ltwice_of tn HIns HRec aq ar); [lia|lia|intros i Hi; apply Hd1, Hdom; auto|intros i Hi; apply Hd1, Hdom; auto|exact Rdis]. }
      intros z m4 Hm4. eapply yp_forkcredit with (d1 := reg aq) (P1 := fun _ => True) (P2 := fun _ => True);
          [reflexivity|reflexivity|apply Hloose1| | | | | | ].
      { intros i Hr. apply Hd1, Hdom. auto. }
      { apply (lmany_of tn HIns HRec aq); [lia|auto]. }
      { apply (lmany_of tn HIns HRec ar); [lia|]. intros i Hi. split; [apply Hd1, Hdom; auto|]. intro Ha. exact (Rdis i Ha Hi). }
      { intros w _ _. apply Hloose1. }
      + intros m5 Hm5. apply yp_bGLong; [lia|lia|lia|lia|rewrite <- Eq; lia].
      + intros m5 Hm5. apply yp_ret.
        split; [reflexivity|]. split; [exact (eq_trans Hmain1 Hmain)|].
        split; [split; [split; [reflexivity|apply Hloose1]|intro; exact I]|].
        cbn [dom rd]. split; [|exact Hbig].
        intros i Hr. destruct (Hd1 i (Hdom i (Rar i Hr))). pose proof (fun Hi => Rdis i Hi Hr).
        split; (split; [assumption|assumption]). }
    intros _ g2 m4 Hm4 Hi2. eapply Hgo; [lia|exact Hi2].
  - eapply (yp_bss (reg aq) (reg aq) False); [apply (ss_small m2 l' h'); [apply own_self; lia|lia|lia]|exact Hlive1|apply hasr_of; intros i Hi; apply Hd1, Hdom; auto|rewrite <- Eq; lia|].
    intros _ g2 m4 Hm4 _ (v & x & ->). apply (Hgo _ _ a1); [lia|].
    split; [exact Hmd1|]. split; [exact (eq_trans Hmain1 Hmain)|]. split; [exact Hloose1|].
    split; [intros i Hr; apply Hd1, Hdom; auto|exact Hbig].
Qed.

Lemma yp_bSortConc m (X : cells) n v (sn : Z) : (forall i, reg (rng 0 n) i -> X i) ->
  2 * (maxRec + 1) <= n + 1 -> n < top -> 11 * n + 29 < 20 * wq -> 1 < sn ->
  (Z.to_nat (Z.log2 (n + 1) + 2) <= Dm)%nat ->
  yp m (Z.to_nat (Z.log2 (n + 1) + 2)) (QMS (fun _ _ => True)) (lswSortConc lt cap tn meanI n) (Gst X X v MInit sn).
Proof.
  intros HX Hs Hcap Hb Hsn HDm. rewrite lswSortConc_unfold. assert (L0 := Z.log2_nonneg (n + 1)).
  set (s := rng 0 n) in *.
  apply (yp_makesv body Dm lax m _ _ _ _ (fun _ => True)); [reflexivity|exact Hsn| |].
  { apply (lmany_of tn HIns HRec s); [unfold s; cbn [rng len]; lia|exact HX]. }
  intros m1 Hm1. set (a0 := Act (T := T) (Some (fun _ => True)) (fun _ => True) false true None).
  assert (E1 : n - 0 + 1 = n + 1) by lia.
  eapply yp_bind.
  { eapply yp_conseq; [apply (yp_bMainLoop m1 0 n) with (a := a0); [lia|lia|exact Hcap|exact Hb| |reflexivity|rewrite E1; exact HDm]|rewrite E1; lia|].
    { split; [reflexivity|]. split; [reflexivity|]. split; [split; [split; reflexivity|intro; exact I]|].
      split; [intros i Hi; split; apply HX; exact Hi|cbn [rng len]; lia]. }
    intros p g' H. exact H. }
  cbv beta. intros [lo hi] g1 m2 Hm2 (Hl1 & Hl2 & (a1 & Hinv)). cbn [fst snd] in *.
  destruct Hinv as (Hmd & Hmain & Hloose & Hdom & Hlen). cbn [rng len] in Hlen.
  assert (L2 := Z.log2_nonneg (hi - lo + 1)).
  assert (L3 : Z.log2 (hi - lo + 1) <= Z.log2 (n + 1)) by (apply Z.log2_le_mono; lia).
  eapply yp_call with (Q1 := fun _ g' => went (reg (rng lo hi)) g1 a1 g'); [lia|unfold live; rewrite Hmd; exact I| |].
  { intros m3 _. cbn [lswBody]. rewrite llong_unfold.
    eapply yp_conseq; [apply (yp_blong m3 lo hi g1 a1); [lia|lia|lia|lia|exact Hmd|exact Hloose|exact Hdom|lia]|lia|auto]. }
  intros g2 m3 Hm3 (a2 & Em & Ea & [Hi HP] & HD).
  eapply yp_adddec; [exact Em|apply Hi|apply Hi|intros w _; apply HP|].
  intros z m4 Hm4 Hz. unfold signed_off. rewrite Ea, Hmain. destruct (Z.eqb_spec z 0).
  - apply yp_ret. cbn. auto.
  - eapply yp_recvwait; [reflexivity|]. intros _ m5 Hm5. apply yp_ret. cbn. auto.
Qed.

(** sortyLsw.go:337-392, func Sort, started by its caller. *)
Lemma yp_bSort m (X : cells) N v sn0 md0 : (forall i, reg (Slice 0 N) i -> X i) ->
  0 <= N -> N <= top -> 11 * N + 18 < 20 * wq ->
  md0 = MInit \/ (md0 = MSeq /\ N < 2 * (maxRec + 1)) ->
  (Z.to_nat (Z.log2 N + 2) <= Dm)%nat ->
  yp m (Z.to_nat (Z.log2 N + 2)) (QMS (fun _ _ => True)) (lswSort lt cap tn meanI N) (Gst X X v md0 sn0).
Proof.
  intros HX H0 Hcap Hb Hmd HDm. unfold lswSort. rewrite iw_small by lia. cbv zeta.
  set (n := N - 1). assert (En : n + 1 = N) by (unfold n; lia). assert (En2 : n - 0 + 1 = N) by lia.
  assert (Er : rng 0 n = Slice 0 N) by (unfold rng; f_equal; lia).
  assert (Hlive : forall sn, live (Gst X X v md0 sn)) by (intro sn; unfold live; cbn [md]; destruct Hmd as [->|[-> _]]; exact I).
  assert (Hh : forall sn, hasr (rng 0 n) (Gst X X v md0 sn)).
  { intro sn. apply hasr_of. rewrite Er. intros i Hi. split; apply HX; exact Hi. }
  assert (HQ : forall sn g' (u : unit), moved (Gst X X v md0 sn) g' -> QMS (fun _ _ => True) u g').
  { intros sn g' u (w & x & ->). unfold QMS, QM. cbn [md]. destruct Hmd as [->|[-> _]]; auto. }
  assert (L0 := Z.log2_nonneg N).
  assert (Hseq : forall sn m, yp m (Z.to_nat (Z.log2 N + 2)) (QMS (fun _ _ => True))
      (if maxRec <=? n then Call (LLong 0 n false) (Ret tt)
       else if maxIns <=? n then Call (LShort 0 n) (Ret tt)
       else if 0 <? n then lswInsertion lt cap 0 n else Ret tt)
      (Gst X X v md0 sn)).
  { intros sn m'. assert (Os : own (Or := reg (rng 0 n)) (Ow := reg (rng 0 n)) 0 n) by (apply own_self; lia).
    destruct (Z.leb_spec maxRec n) as [C|C].
    - eapply (yp_ss (reg (rng 0 n)) (reg (rng 0 n)) False m' (Z.to_nat (Z.log2 N + 2)) _ (fun _ => True)); [|apply Hlive|apply Hh|lia|intros; eapply HQ; eassumption].
      apply (ss_call _ _ (fun _ => True)); [lia| |intros; apply ss_ret; exact I].
      intros m2 _. cbn [lswBody]. eapply ss_conseq; [apply (ss_long m2 0 n); [lia|exact Os|lia]|rewrite En2; lia|auto].
    - destruct (Z.ltb_spec 0 n) as [C3|C3].
      + assert (G := ss_small (Or := reg (rng 0 n)) (Ow := reg (rng 0 n)) (sure := False) m' 0 n Os ltac:(lia) ltac:(lia)).
        rewrite Z.sub_0_r in G.
        eapply (yp_ss (reg (rng 0 n)) (reg (rng 0 n)) False); [exact G|apply Hlive|apply Hh|rewrite En; lia|intros; eapply HQ; eassumption].
      + destruct (Z.leb_spec maxIns n); [lia|]. apply yp_ret. apply (HQ sn). apply moved_refl. }
  eapply yp_bind with (Q1 := fun b g' => exists sn, g' = Gst X X v md0 sn /\
    (b = false -> 1 < sn /\ 2 * (maxRec + 1) <= n + 1)).
  - rewrite (lswConc_plain tn HIns HRec HRec2). destruct (Z.leb_spec n (2 * maxRec)) as [C|C].
    + apply yp_ret. exists sn0. split; [reflexivity|discriminate].
    + apply yp_loadmax; [apply Hlive|]. intros mg m1 Hm1 Hmg.
      apply yp_ret. exists mg. split; [reflexivity|]. intro E. apply Z.leb_gt in E. lia.
  - intros [|] g' m1 Hm1 (sn & -> & Hsn); [apply Hseq|].
    destruct (Hsn eq_refl) as [Hsn1 Hsn2]. destruct Hmd as [->|[_ Hmd]]; [|lia].
    eapply yp_conseq; [apply (yp_bSortConc m1 X n v sn); [rewrite Er; exact HX|lia|lia|lia|exact Hsn1|rewrite En; exact HDm]|rewrite En; lia|auto].
Qed.

End SlyLsw.
