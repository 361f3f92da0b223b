(** * Search on what the sorters produce *)

From Coq Require Import List ZArith Lia Bool Permutation Sorted.
From Verif Require Import Lang Scalar Typed Kinds Spec Lsw SearchFacts Calls Guarantee TopFacts Witness Examples.
Import ListNotations.
Open Scope Z_scope.

Section Lookup.
Context {T : Type}.
Variable p : T -> bool.

Definition rises (l : list T) : Prop := StronglySorted (fun x y => p x = true -> p y = true) l.

Lemma rises_app a b : rises a -> rises b -> (forall x y, In x a -> In y b -> p x = true -> p y = true) -> rises (a ++ b).
Proof.
  unfold rises. intros Ha Hb H. induction Ha as [|x a Ha IH Hx]; [exact Hb|]. cbn [app]. constructor.
  - apply IH. intros u v Hu. apply H. right. exact Hu.
  - apply Forall_app. split; [exact Hx|]. apply Forall_forall. intros y Hy. apply H; [left; reflexivity|exact Hy].
Qed.

Lemma rises_weaken (R : T -> T -> Prop) l : StronglySorted R l ->
  (forall x y, In x l -> In y l -> R x y -> p x = true -> p y = true) -> rises l.
Proof.
  intros HS H. induction HS as [|x l HS IH Hx]; [constructor|]. constructor.
  - apply IH. intros u v Hu Hv. apply H; right; assumption.
  - rewrite Forall_forall in *. intros y Hy. apply H; [left; reflexivity|right; exact Hy|apply Hx; exact Hy].
Qed.

Lemma rises_all (b : bool) l : Forall (fun x => p x = b) l -> rises l.
Proof.
  intro H. induction H as [|x l Hx H IH]; [constructor|]. constructor; [exact IH|].
  rewrite Forall_forall in *. intros y Hy E. rewrite <- E, Hx. apply H. exact Hy.
Qed.

Lemma contents_nth (w : Z -> T) s i d : 0 <= i < len s -> nth (Z.to_nat i) (contents w s) d = w (off s + i).
Proof.
  intro H. unfold contents.
  rewrite (nth_indep _ d (w (off s + Z.of_nat 0))) by (rewrite map_length, seq_length; lia).
  rewrite (map_nth (fun n => w (off s + Z.of_nat n))).
  rewrite seq_nth by lia. f_equal. lia.
Qed.

Lemma contents_length (w : Z -> T) s : length (contents w s) = Z.to_nat (len s).
Proof. unfold contents. rewrite map_length, seq_length. reflexivity. Qed.

Lemma rises_nth l d : rises l -> forall i j, (i < j < length l)%nat -> p (nth i l d) = true -> p (nth j l d) = true.
Proof.
  intro HS. induction HS as [|x l HS IH Hx]; cbn [length]; intros i j H E; [lia|].
  destruct j as [|j]; [lia|]. destruct i as [|i]; cbn [nth] in *.
  - rewrite Forall_forall in Hx. apply Hx; [apply nth_In; lia|exact E].
  - apply (IH i j); [lia|exact E].
Qed.

Lemma rises_monotone (w : Z -> T) s : rises (contents w s) -> monotone (len s) (fun i => p (w (off s + i))).
Proof.
  intros HR i H0 H1 E.
  rewrite <- (contents_nth w s i (w 0)) in E by lia. rewrite <- (contents_nth w s (i + 1) (w 0)) by lia.
  apply (rises_nth _ (w 0) HR (Z.to_nat i)); [|exact E]. rewrite contents_length. lia.
Qed.

Lemma filter_Permutation (f : T -> bool) l l' : Permutation l l' -> Permutation (filter f l) (filter f l').
Proof.
  intro H. induction H as [|x l l' H IH|x y l|l l' l'' H IH H' IH']; cbn [filter].
  - constructor.
  - destruct (f x); [constructor|]; exact IH.
  - destruct (f x), (f y); try apply Permutation_refl. apply perm_swap.
  - eapply perm_trans; eassumption.
Qed.

Lemma filter_all (f : T -> bool) l : (forall x, In x l -> f x = true) -> filter f l = l.
Proof.
  induction l as [|x l IH]; intro H; [reflexivity|]. cbn [filter].
  rewrite (H x (or_introl eq_refl)). f_equal. apply IH. intros y Hy. apply H. right. exact Hy.
Qed.

Lemma filter_none (f : T -> bool) l : (forall x, In x l -> f x = false) -> filter f l = [].
Proof.
  induction l as [|x l IH]; intro H; [reflexivity|]. cbn [filter].
  rewrite (H x (or_introl eq_refl)). apply IH. intros y Hy. apply H. right. exact Hy.
Qed.

(** How many are answered no. *)
Lemma count_no n : forall (f : nat -> T) r, (r <= n)%nat ->
  (forall i, (i < r)%nat -> p (f i) = false) -> (forall i, (r <= i < n)%nat -> p (f i) = true) ->
  length (filter (fun x => negb (p x)) (map f (seq 0 n))) = r.
Proof.
  intros f r Hr H1 H2.
  replace n with (r + (n - r))%nat by lia. rewrite seq_app, map_app, filter_app, app_length.
  rewrite filter_all, filter_none.
  - rewrite map_length, seq_length. cbn. lia.
  - intros x Hx. apply in_map_iff in Hx. destruct Hx as (i & <- & Hi). apply in_seq in Hi.
    rewrite H2 by lia. reflexivity.
  - intros x Hx. apply in_map_iff in Hx. destruct Hx as (i & <- & Hi). apply in_seq in Hi.
    rewrite H1 by lia. reflexivity.
Qed.

(** Search on a rising slice. *)
Lemma search_rising pl {P} (body : P -> cmd P bool unit) M s (w : Z -> T) l0 mg0 k st r : platOk pl ->
  0 <= len s < intSize pl -> rises (contents w s) -> Permutation (contents w s) l0 ->
  exec body M (cellsOf (Slice 0 (len s))) k (start (search (mI pl) (len s)) (fun i => p (w (off s + i))) mg0) st ->
  returned st r -> splitsAt p (len s) r (fun i => w (off s + i)) l0.
Proof.
  intros Hpl Hs HR HP HE Hr.
  destruct (search_lowest pl P body M (len s) _ mg0 k st r Hpl Hs (rises_monotone w s HR) HE Hr) as (A & B & C).
  split; [|split; [exact B|exact C]].
  rewrite <- (Permutation_length (filter_Permutation (fun x => negb (p x)) _ _ HP)).
  unfold contents. rewrite (count_no _ _ (Z.to_nat r)); [lia|lia|intros; apply B; lia|intros; apply C; lia].
Qed.

End Lookup.

Lemma upward_rises e opt (p : elem e -> bool) l : upward e opt p -> inOrder e opt l -> sortable e opt l -> rises p l.
Proof.
  intros (U & U1 & U2) (a & x & b & -> & Ha & Hx & Hb & HS & A & B) Hs.
  rewrite Forall_forall in *.
  assert (HX : rises p x) by (apply (rises_weaken p _ x HS); intros u v Hu Hv; apply U; [apply Hx; exact Hu|apply Hx; exact Hv]).
  destruct Hs as [->|[->|HN]].
  - rewrite (A eq_refl). cbn [app]. assert (HB : forall y, In y b -> p y = true) by (intros; apply U1; auto).
    apply rises_app; [exact HX|apply (rises_all p true); apply Forall_forall; exact HB|auto].
  - rewrite (B eq_refl), app_nil_r. assert (HA : forall y, In y a -> p y = false) by (intros; apply U2; auto).
    apply rises_app; [apply (rises_all p false); apply Forall_forall; exact HA|exact HX|].
    intros u v Hu _ E. rewrite (HA u Hu) in E. discriminate.
  - rewrite Forall_forall in HN.
    destruct a as [|y a]; [|exfalso; apply (HN y); [left; reflexivity|apply Ha; left; reflexivity]].
    destruct b as [|y b]; [|exfalso; apply (HN y); [rewrite !in_app_iff; cbn; tauto|apply Hb; left; reflexivity]].
    rewrite app_nil_r. exact HX.
Qed.

(** ** After SortSlice and SortLen *)

Lemma search_sorted pl tn opt e s m0 M k st (p : elem e -> bool) {P} (body : P -> cmd P bool unit) M' mg0 k' st' r :
  platOk pl -> tuningOk pl tn -> typedSlice pl e m0 s -> sortable e opt (contents m0 s) ->
  reach (typedCall pl tn opt e s m0) M k st -> returned st tt -> upward e opt p ->
  exec body M' (cellsOf (Slice 0 (len s))) k'
    (start (search (mI pl) (len s)) (fun i => p (mem (sh st) (off s + i))) mg0) st' -> returned st' r ->
  splitsAt p (len s) r (fun i => mem (sh st) (off s + i)) (contents m0 s).
Proof.
  intros Hpl Htn Hty Hso HR Hret HU HE Hr.
  destruct (g_goal pl tn Hpl Htn _ (call_typed pl tn e opt s m0 Hty Hso) M k st HR tt Hret) as [[HP HO] _].
  eapply search_rising; [exact Hpl|apply Hty| |exact HP|exact HE|exact Hr].
  apply (upward_rises e opt); [exact HU|exact HO|].
  destruct Hso as [->|[->|HN]]; [left; reflexivity|right; left; reflexivity|right; right].
  eapply Permutation_Forall; [apply Permutation_sym; exact HP|exact HN].
Qed.

(** ** After Sort *)

Lemma search_lsw_sorted pl tn T (lt : T -> T -> bool) cap n m0 M k st (p : T -> bool) {P} (body : P -> cmd P bool unit) M' mg0 k' st' r :
  platOk pl -> tuningOk pl tn -> weakOrder lt -> 0 <= n <= cap -> 11 * n + 18 < 10 * intSize pl ->
  reach (lswCall pl tn lt cap n m0) M k st -> returned st tt ->
  (forall x y, lt y x = false -> p x = true -> p y = true) ->
  exec body M' (cellsOf (Slice 0 n)) k' (start (search (mI pl) n) (fun i => p (mem (sh st) i)) mg0) st' -> returned st' r ->
  splitsAt p n r (mem (sh st)) (contents m0 (Slice 0 n)).
Proof.
  intros Hpl Htn Hlt Hn Hb HR Hret HU HE Hr.
  destruct (sorted_lsw pl tn T lt cap n m0 M k st Hpl Htn Hlt Hn Hb HR Hret) as [HP HO].
  assert (HI : 0 < intSize pl) by (unfold intSize; destruct Hpl as [[E|E] _]; rewrite E; reflexivity).
  apply (search_rising p pl body M' (Slice 0 n) (mem (sh st)) (contents m0 (Slice 0 n)) mg0 k' st' r); cbn [len off]; auto; [lia|].
  eapply rises_weaken; [exact HO|]. intros x y _ _ H. apply HU. exact H.
Qed.

(** 60 integers from -30 to 30 (without 5), sorted by three goroutines; the first one >= 10 is at
    position 39. *)
Definition ask10 (x : Z) : bool := 10 <=? intVal 64 x.

Lemma ask10_upward : upward TI8 1 ask10.
Proof.
  split; [|split; [intros _ x []|discriminate]].
  intros x y _ _ H E. unfold ask10 in *. cbn [le] in H. apply Z.leb_le in E. apply Z.leb_le. lia.
Qed.

Example ex_lookup : upward TI8 1 ask10 /\ exists k st, reach exCall 3 k st /\ returned st tt /\
  exists k' st', exec (@noProcs unit bool) 1 (cellsOf (Slice 0 (len exSlice))) k'
    (start (search (mI plat64) (len exSlice)) (fun i => ask10 (mem (sh st) (off exSlice + i))) 1) st' /\ returned st' 39.
Proof.
  split; [exact ask10_upward|].
  destruct (rotate_reach exCall 3 3 (Z.to_nat 20000) 0 ltac:(lia)) as [k H].
  eexists k, _; split; [exact H|]. split; [apply isRet_returned; vm_compute; reflexivity|].
  set (w := mem _). assert (E : forall i, w i = mem (sh (rotate (cProcs exCall) (Z.to_nat 20000) 0 (start (cProg exCall) (cInit exCall) 3))) i) by reflexivity.
  by_exec (@noProcs unit bool) 1 (cellsOf (Slice 0 (len exSlice))) 100 (start (search (mI plat64) (len exSlice) : cmd unit bool Z) (fun i => ask10 (w (off exSlice + i))) 1).
  subst w. apply isRetZ_returned. vm_compute. reflexivity.
Qed.
