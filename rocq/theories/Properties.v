(** * The properties of /verif/properties.jsonl

    Nothing but statements: every theorem is closed by a lemma proved elsewhere, followed
    by its assumptions and by a concrete case meeting its hypotheses.

    Throughout, [pl] are the averaging functions of package sixb (any that satisfy their
    contract [platOk]), [tn] the tuning parameters (any accepted by the package and not
    absurdly large, [tuningOk]), [M] a bound on MaxGor, whose value may change at any time
    within [0..M]; [reach C M k s] says that state [s] can be reached in [k] steps of the
    goroutines of call [C], interleaved with any changes of MaxGor and of memory outside
    the collection. *)

From Coq Require Import List ZArith Lia Bool Permutation Sorted.
From Verif Require Import Lang Trace TraceFacts AnyFacts Scalar Typed Kinds Spec Lsw SearchFacts TypedFacts LswFacts ConcSplit Weak WeakFacts Calls ScalarFacts Guarantee TopFacts
  Witness Forever Refute Examples Live Lookup Limit Many Bytes BytesFacts BytesEx Torn TornFacts TornTop TornEx Spread CalmTop CalmEx SlowTop SlowLsw SlowEx Shared Results ResultsEx WeakAny Oracle OracleEx OracleTyped OracleTypedEx Endless Abandon AbandonEx Watch WatchEx TornWeak TornWeakFacts TornWeakTop TornWeakEx Thin ThinTyped ThinLsw ThinEx Collect CollectTop CollectEx Vanish VanishEx ThinRace Tally TallyTop AlikeTop AlikeTyped AlikeEx Looks Cross CrossEx Values.
Import ListNotations.
Open Scope Z_scope.

(** ** C01: integers *)

Theorem C01_sort_integers : forall pl tn opt e s m0 M k st, platOk pl -> tuningOk pl tn ->
  In e [TI4; TI8; TU4; TU8] -> typedSlice pl e m0 s ->
  reach (typedCall pl tn opt e s m0) M k st -> returned st tt ->
  Permutation (contents (mem (sh st)) s) (contents m0 s) /\
  StronglySorted (le e) (contents (mem (sh st)) s).
Proof. exact sorted_integers. Qed.
Print Assumptions C01_sort_integers.

Example C01_example : typedSlice plat64 TI8 exMem exSlice /\ finished exCall 3 2 exSorted exSlice.
Proof. exact (conj ex_int_typed ex_int_run). Qed.

(** ** C02: floats, NaNlarge *)

Theorem C02_sort_floats_nan_large : forall pl tn e s m0 M k st, platOk pl -> tuningOk pl tn ->
  In e [TF4; TF8] -> typedSlice pl e m0 s ->
  reach (typedCall pl tn 1 e s m0) M k st -> returned st tt ->
  Permutation (contents (mem (sh st)) s) (contents m0 s) /\
  exists x b, contents (mem (sh st)) s = x ++ b /\
    Forall (fun y => ~ nan e y) x /\ StronglySorted (le e) x /\ Forall (nan e) b.
Proof. exact (fun pl tn e s m0 M k st a b _ => sorted_large pl tn e s m0 M k st a b). Qed.
Print Assumptions C02_sort_floats_nan_large.

Example C02_example : typedSlice plat64 TF8 fMem64 fSlice64 /\
  exists k st, reach (fCall64 1) 3 k st /\ returned st tt /\ (1 <= length (thr st))%nat /\
  map nan64b (contents (mem (sh st)) fSlice64) = repeat false 51 ++ repeat true 9 /\
  firstn 5 (contents (mem (sh st)) fSlice64) =
    [18442240474082181120; 18442240474082181120; 18442240474082181120; 2 ^ 63 + 1; 2 ^ 63 + 1].
Proof. exact (conj ex_f64_typed ex_f64_last). Qed.

(** ** C03: floats, NaNsmall *)

Theorem C03_sort_floats_nan_small : forall pl tn e s m0 M k st, platOk pl -> tuningOk pl tn ->
  In e [TF4; TF8] -> typedSlice pl e m0 s ->
  reach (typedCall pl tn (-1) e s m0) M k st -> returned st tt ->
  Permutation (contents (mem (sh st)) s) (contents m0 s) /\
  exists a x, contents (mem (sh st)) s = a ++ x /\
    Forall (nan e) a /\ Forall (fun y => ~ nan e y) x /\ StronglySorted (le e) x.
Proof. exact (fun pl tn e s m0 M k st a b _ => sorted_small pl tn e s m0 M k st a b). Qed.
Print Assumptions C03_sort_floats_nan_small.

Example C03_example : typedSlice plat64 TF8 fMem64 fSlice64 /\
  exists k st, reach (fCall64 (-1)) 3 k st /\ returned st tt /\ (1 <= length (thr st))%nat /\
  map nan64b (contents (mem (sh st)) fSlice64) = repeat true 9 ++ repeat false 51.
Proof. exact (conj ex_f64_typed ex_f64_first). Qed.

(** ** C04: strings and byte slices *)

Theorem C04_sort_strings : forall pl tn opt s m0 M k st, platOk pl -> tuningOk pl tn ->
  typedSlice pl TS m0 s -> reach (typedCall pl tn opt TS s m0) M k st -> returned st tt ->
  Permutation (contents (mem (sh st)) s) (contents m0 s) /\
  StronglySorted (fun x y => lexle (sbytes x) (sbytes y)) (contents (mem (sh st)) s).
Proof. exact (fun pl tn opt s m0 M k st a b => sorted_plain pl tn opt TS s m0 M k st a b eq_refl). Qed.
Print Assumptions C04_sort_strings.

Theorem C04_sort_bytes : forall pl tn opt s m0 M k st, platOk pl -> tuningOk pl tn ->
  typedSlice pl TB m0 s -> reach (typedCall pl tn opt TB s m0) M k st -> returned st tt ->
  Permutation (contents (mem (sh st)) s) (contents m0 s) /\
  StronglySorted (fun x y => lexle (bbytes x) (bbytes y)) (contents (mem (sh st)) s).
Proof. exact (fun pl tn opt s m0 M k st a b => sorted_plain pl tn opt TB s m0 M k st a b eq_refl). Qed.
Print Assumptions C04_sort_bytes.

Example C04_example : typedSlice plat64 TS sMem sSlice /\ typedSlice plat64 TB bMem sSlice /\
  (exists k st, reach sCall 3 k st /\ returned st tt /\ (1 <= length (thr st))%nat /\
   map sbytes (firstn 4 (contents (mem (sh st)) sSlice)) = [[0; 98]; [4; 98]; [9; 98]; [14; 98]]) /\
  (exists k st, reach bCall 3 k st /\ returned st tt /\ (1 <= length (thr st))%nat /\
   map bbytes (firstn 4 (contents (mem (sh st)) sSlice)) = [[0; 98]; [4; 98]; [9; 98]; [14; 98]]).
Proof. exact (conj (proj1 ex_s_typed) (conj ex_b_typed (conj ex_s_run ex_b_run))). Qed.

(** ** C05: by length *)

Theorem C05_sort_len_strings : forall pl tn opt s m0 M k st, platOk pl -> tuningOk pl tn ->
  typedSlice pl TLenS m0 s -> reach (typedCall pl tn opt TLenS s m0) M k st -> returned st tt ->
  Permutation (contents (mem (sh st)) s) (contents m0 s) /\
  StronglySorted (fun x y => (length (sbytes x) <= length (sbytes y))%nat) (contents (mem (sh st)) s).
Proof. exact (fun pl tn opt s m0 M k st a b => sorted_plain pl tn opt TLenS s m0 M k st a b eq_refl). Qed.
Print Assumptions C05_sort_len_strings.

Theorem C05_sort_len_slices : forall pl tn opt s m0 M k st, platOk pl -> tuningOk pl tn ->
  typedSlice pl TLenB m0 s -> reach (typedCall pl tn opt TLenB s m0) M k st -> returned st tt ->
  Permutation (contents (mem (sh st)) s) (contents m0 s) /\
  StronglySorted (fun x y => alen x <= alen y) (contents (mem (sh st)) s).
Proof. exact (fun pl tn opt s m0 M k st a b => sorted_plain pl tn opt TLenB s m0 M k st a b eq_refl). Qed.
Print Assumptions C05_sort_len_slices.

Example C05_example : typedSlice plat64 TLenS sMem sSlice /\ typedSlice plat64 TLenB aMem sSlice /\
  (exists k st, reach lsCall 3 k st /\ returned st tt /\ (1 <= length (thr st))%nat /\
   map (fun x => length (sbytes x)) (contents (mem (sh st)) sSlice) =
     (repeat 2 10 ++ repeat 3 10 ++ repeat 4 10 ++ repeat 5 10 ++ repeat 6 10)%nat) /\
  (exists k st, reach laCall 3 k st /\ returned st tt /\ (1 <= length (thr st))%nat /\
   map alen (firstn 5 (contents (mem (sh st)) sSlice)) = [0; 0; 0; 1; 1]).
Proof. exact (conj (proj2 ex_s_typed) (conj ex_a_typed (conj ex_len_run ex_lenB_run))). Qed.

(** ** C06: Sort over a Lesswap function *)

Theorem C06_sort_lesswap : forall pl tn T (lt : T -> T -> bool) cap n m0 M k st, platOk pl -> tuningOk pl tn ->
  weakOrder lt -> 0 <= n <= cap -> 11 * n + 18 < 10 * intSize pl ->
  reach (lswCall pl tn lt cap n m0) M k st -> returned st tt ->
  Permutation (contents (mem (sh st)) (Slice 0 n)) (contents m0 (Slice 0 n)) /\
  noSmallerAfter lt (contents (mem (sh st)) (Slice 0 n)).
Proof. exact sorted_lsw. Qed.
Print Assumptions C06_sort_lesswap.

(** The bound on [n] is needed: for every larger [n] (but for the three or four that the
    constants leave open), whatever the comparison, the sampling of the first pivot leaves the range of int
    and Lesswap is called with a negative index. *)
Theorem C06_sort_large_refuted : forall pl tn T (lt : T -> T -> bool) (x : T) cap n, platOk pl -> tuningOk pl tn ->
  irreflexive lt -> n <= cap -> n < intSize pl -> 10 * intSize pl + 17 <= 11 * n ->
  exists k st, reach (lswCall pl tn lt cap n (fun _ => x)) 1 k st /\ panicked st.
Proof. exact (fun pl tn T lt x cap n a b c d e f => large_fails pl a tn b lt c x cap n d e f). Qed.
Print Assumptions C06_sort_large_refuted.

Example C06_example : sortCall plat64 tiny pCall /\
  exists k st, reach pCall 3 k st /\ returned st tt /\ (1 <= length (thr st))%nat /\
  map fst (firstn 8 (contents (mem (sh st)) pSlice)) = [22; 22; 21; 21; 21; 20; 20; 20].
Proof. exact (conj ex_lsw_call ex_lsw_run). Qed.

(** ** C07: nothing outside the collection is touched *)

Theorem C07_frame : forall pl tn T (C : call T) M k s s', platOk pl -> tuningOk pl tn -> sortCall pl tn C ->
  reach C M k s -> pstep (cProcs C) s s' -> forall i, ~ cCells C i -> mem (sh s') i = mem (sh s) i.
Proof. exact (fun pl tn T C M k s s' a b c d => g_frame pl tn a b C c M k s d s'). Qed.
Print Assumptions C07_frame.

Theorem C07_accesses : forall pl tn T (C : call T) M k s x w, platOk pl -> tuningOk pl tn -> sortCall pl tn C ->
  reach C M k s -> In (Some (x, w)) (accesses s) -> cCells C x.
Proof. exact (fun pl tn T C M k s x w a b c d => g_in_bounds pl tn a b C c M k s d x w). Qed.
Print Assumptions C07_accesses.

(** With a collection of exactly [n] elements and a Lesswap that panics as soon as one of
    its four arguments is not an index of the collection (see [Lsw.lsw]), no call panics:
    Sort never passes an index outside [0..n-1]. *)
Theorem C07_lesswap_indices : forall pl tn T (lt : T -> T -> bool) n m0 M k st, platOk pl -> tuningOk pl tn ->
  irreflexive lt -> 0 <= n -> 11 * n + 18 < 10 * intSize pl -> reach (lswCall pl tn lt n n m0) M k st -> ~ panicked st.
Proof. exact lsw_indices. Qed.
Print Assumptions C07_lesswap_indices.

Example C07_example : sortCall plat64 tiny exCall /\ (exists k, reach exCall 3 k exMid) /\
  In (Some (34, true)) (accesses exMid) /\ ~ cCells exCall 65.
Proof.
  split; [exact ex_int_call|]. split; [apply ex_int_mid|]. split; [rewrite (proj1 (proj2 ex_int_mid)); left; reflexivity|].
  cbn. unfold cellsOf. simpl. lia.
Qed.

(** ** C08: no panic *)

Theorem C08_no_panic : forall pl tn T (C : call T) M k s, platOk pl -> tuningOk pl tn -> sortCall pl tn C ->
  reach C M k s -> ~ panicked s.
Proof. exact (fun pl tn T C M k s a b c d => g_no_panic pl tn a b C c M k s d). Qed.
Print Assumptions C08_no_panic.

Example C08_example : sortCall plat64 tiny exCall /\ (exists k, reach exCall 3 k exMid) /\
  sortCall plat64 tiny pCall.
Proof. exact (conj ex_int_call (conj (proj1 ex_int_mid) ex_lsw_call)). Qed.

(** What panics in the model: exactly the accesses out of bounds. *)
Example C08_checked : forall (P T : Type) (s : slice) i l h (x : T) (m : list T),
  (view (sget s i : cmd P T T) = HPanic <-> ~ 0 <= i < len s) /\
  (view (sset s i x : cmd P T unit) = HPanic <-> ~ 0 <= i < len s) /\
  (view (reslice s l h : cmd P T slice) = HPanic <-> ~ (0 <= l <= h /\ h <= len s)) /\
  (lget m i = None <-> ~ 0 <= i < Z.of_nat (length m)) /\
  (lset m i x = None <-> ~ 0 <= i < Z.of_nat (length m)).
Proof. exact ex_checked. Qed.

Example C08_checked_lesswap : forall (T : Type) (lt : T -> T -> bool) cap i k r s (x : T),
  (view (cget cap i) = HPanic (T := T) <-> ~ 0 <= i < cap) /\
  (view (cset cap i x) = HPanic <-> ~ 0 <= i < cap) /\
  (~ (0 <= r < cap /\ 0 <= s < cap) -> view (lsw lt cap i k r s) = HPanic).
Proof. exact ex_checked_lsw. Qed.

(** ** C09: termination *)

Theorem C09_step_bound : forall pl tn T (C : call T) M k s, platOk pl -> tuningOk pl tn -> sortCall pl tn C ->
  reach C M k s -> Z.of_nat k <= 100 * cLen C * cLen C + 6 * cLen C + 20.
Proof. exact (fun pl tn T C M k s a b c d => g_steps pl tn a b C c M k s d). Qed.
Print Assumptions C09_step_bound.

Theorem C09_can_finish : forall pl tn T (C : call T) M k s, platOk pl -> tuningOk pl tn -> sortCall pl tn C ->
  reach C M k s -> exists j s', exec (cProcs C) M (cCells C) j s s' /\ returned s' tt.
Proof. exact can_finish. Qed.
Print Assumptions C09_can_finish.

Example C09_example : sortCall plat64 tiny exCall /\ finished exCall 3 2 exSorted exSlice.
Proof. exact (conj ex_int_call ex_int_run). Qed.

(** ** C10: no deadlock *)

Theorem C10_progress : forall pl tn T (C : call T) M k s, platOk pl -> tuningOk pl tn -> sortCall pl tn C ->
  reach C M k s -> (exists r, returned s r) \/ exists s', pstep (cProcs C) s s'.
Proof. exact (fun pl tn T C M k s a b c d => g_progress pl tn a b C c M k s d). Qed.
Print Assumptions C10_progress.

Example C10_example : sortCall plat64 tiny exCall /\ (exists k, reach exCall 3 k exMid) /\ isRet exMid = false.
Proof. exact (conj ex_int_call (conj (proj1 ex_int_mid) (proj2 (proj2 (proj2 (proj2 (proj2 (proj2 ex_int_mid)))))))). Qed.

(** ** C11: no data race *)

Theorem C11_no_race : forall pl tn T (C : call T) M k s, platOk pl -> tuningOk pl tn -> sortCall pl tn C ->
  reach C M k s -> ~ race s.
Proof. exact (fun pl tn T C M k s a b c d => g_no_race pl tn a b C c M k s d). Qed.
Print Assumptions C11_no_race.

Example C11_example : sortCall plat64 tiny exCall /\ (exists k, reach exCall 3 k exMid) /\
  accesses exMid = [Some (34, true); None; Some (18, true)].
Proof. exact (conj ex_int_call (conj (proj1 ex_int_mid) (proj1 (proj2 ex_int_mid)))). Qed.

(** ** C12: when the call returns, its goroutines are finished *)

Theorem C12_quiet_after_return : forall pl tn T (C : call T) M k s, platOk pl -> tuningOk pl tn -> sortCall pl tn C ->
  reach C M k s -> returned s tt -> forall j s', exec (cProcs C) M (cCells C) j s s' ->
  returned s' tt /\ (forall i, cCells C i -> mem (sh s') i = mem (sh s) i) /\
  (forall x w, ~ In (Some (x, w)) (accesses s')) /\ forall c, In c (thr s') -> exiting c.
Proof. exact done_calls. Qed.
Print Assumptions C12_quiet_after_return.

Example C12_example : sortCall plat64 tiny exCall /\ finished exCall 3 2 exSorted exSlice.
Proof. exact (conj ex_int_call ex_int_run). Qed.

(** ** C13: single-goroutine mode; at most one channel *)

Theorem C13_single_goroutine : forall pl tn T (C : call T) M k s, platOk pl -> tuningOk pl tn -> sortCall pl tn C ->
  reach C M k s -> M <= 1 \/ cLen C < recLimit tn C -> thr s = [] /\ chans (sh s) = 0.
Proof. exact (fun pl tn T C M k s a b c d => g_single pl tn a b C c M k s d). Qed.
Print Assumptions C13_single_goroutine.

Theorem C13_one_channel : forall pl tn T (C : call T) M k s, platOk pl -> tuningOk pl tn -> sortCall pl tn C ->
  reach C M k s -> 0 <= chans (sh s) <= 1.
Proof. exact (fun pl tn T C M k s a b c d => g_chans pl tn a b C c M k s d). Qed.
Print Assumptions C13_one_channel.

(** The same 60 numbers sorted with MaxGor = 1; with the shipped parameters they are
    below the limit; with the small parameters above it and a channel is created. *)
Example C13_example :
  (exists k st, reach exCall 1 k st /\ returned st tt) /\
  cLen exCall < recLimit shipped exCall /\ recLimit tiny exCall <= cLen exCall /\ chans (sh exMid) = 1.
Proof.
  split; [exact ex_int_single|]. split; [vm_compute; reflexivity|]. split; [vm_compute; discriminate|].
  apply ex_int_mid.
Qed.

(** ** C14: the goroutine quota *)

(** Documented: at most MaxGor goroutines.  Refuted: with MaxGor = 3 throughout, four
    goroutines (the caller included) are at work. *)
Theorem C14_quota_refuted : exists k s idx, fresh quotaCall 3 k s /\ NoDup idx /\ length idx = 4%nat /\
  forall i, In i idx -> busy s i.
Proof. exact quota_exceeded. Qed.
Print Assumptions C14_quota_refuted.

(** What holds if the counter is always read up to date. *)
Theorem C14_active_bound : forall pl tn T (C : call T) M k s idx, platOk pl -> tuningOk pl tn -> sortCall pl tn C ->
  fresh C M k s -> NoDup idx -> (forall i, In i idx -> busy s i) ->
  Z.of_nat (length idx) <= Z.max 1 (2 * (M - 1)).
Proof. exact (fun pl tn T C M k s idx a b c => g_active pl tn a b C c M k s idx). Qed.
Print Assumptions C14_active_bound.

(** Not if it may be outdated: three goroutines with MaxGor = 2. *)
Theorem C14_outdated_refuted : exists k s idx, reach quotaCall 2 k s /\ NoDup idx /\ length idx = 3%nat /\
  forall i, In i idx -> busy s i.
Proof. exact quota_stale. Qed.
Print Assumptions C14_outdated_refuted.

Example C14_example : sortCall plat64 tiny quotaCall.
Proof. exact ex_quota_call. Qed.

(** ** C15: the counter *)

Theorem C15_counter : forall pl tn T (C : call T) M k s, platOk pl -> tuningOk pl tn -> sortCall pl tn C ->
  reach C M k s ->
  (forall d, counts (main s) d \/ (exists c, In c (thr s) /\ counts c d) ->
     (d = 1 /\ 0 <= ngor (sh s) /\ ngor (sh s) + 1 < two64) \/
     (d = two64 - 1 /\ 0 < ngor (sh s) /\ ngor (sh s) < two64)) /\
  (chans (sh s) = 1 -> ngor (sh s) = 0 -> cGoal C (mem (sh s)) /\ forall i, ~ busy s i).
Proof. exact counter_calls. Qed.
Print Assumptions C15_counter.

Example C15_example : sortCall plat64 tiny exCall /\ (exists k, reach exCall 3 k exMid) /\
  ngor (sh exMid) = 2 /\ chans (sh exMid) = 1 /\
  exists k s, reach exCall 3 k s /\ chans (sh s) = 1 /\ ngor (sh s) = 0.
Proof.
  split; [exact ex_int_call|]. split; [apply ex_int_mid|]. split; [apply ex_int_mid|]. split; [apply ex_int_mid|].
  exact ex_int_zero.
Qed.

(** ** C16, C17: Search *)

Theorem C16_search_lowest : forall pl P (body : P -> cmd P bool unit) M n fn mg0 k s r, platOk pl ->
  0 <= n < intSize pl -> monotone n fn ->
  exec body M (cellsOf (Slice 0 n)) k (start (search (mI pl) n) fn mg0) s -> returned s r ->
  0 <= r <= n /\ (forall i, 0 <= i < r -> fn i = false) /\ (forall i, r <= i < n -> fn i = true).
Proof. exact search_lowest. Qed.
Print Assumptions C16_search_lowest.

(** [qs] are the arguments fn was called with.  fn may even change its answers, except on
    the cells [Rg]. *)
Theorem C17_search_any : forall pl P (body : P -> cmd P bool unit) M (Rg : Z -> Prop) n fn mg0 k qs s, platOk pl ->
  n < intSize pl -> asks body M Rg k qs (start (search (mI pl) n) fn mg0) s ->
  Forall (fun i => 0 <= i < n) qs /\ Z.of_nat k <= 2 * Z.of_nat (length qs) + 1 /\
  Z.of_nat (length qs) <= Z.max 0 n /\ thr s = [] /\ ~ panicked s /\
  (halving pl -> Z.of_nat (length qs) <= if n <=? 0 then 0 else Z.log2 n + 1) /\
  ((exists r, returned s r) \/ exists s', pstep body s s') /\
  forall r, returned s r -> 0 <= r <= Z.max 0 n /\
    (Rg (r - 1) -> 0 < r -> fn (r - 1) = false) /\ (Rg r -> r < n -> fn r = true).
Proof. exact search_any. Qed.
Print Assumptions C17_search_any.

Example C16_C17_example : platOk plat64 /\ halving plat64 /\ monotone 1000 (fun i => 700 <=? i * 2) /\
  exists k s, exec (@noProcs unit bool) 1 (cellsOf (Slice 0 1000)) k
    (start (search (mI plat64) 1000) (fun i => 700 <=? i * 2) 1) s /\ returned s 350.
Proof. exact (conj plat64_ok (conj ex_halving ex_search)). Qed.

(** ** C18: IsSorted *)

Theorem C18_is_sorted : forall pl T (lt : T -> T -> bool) cap body n m0 mg0 M k st r,
  - intSize pl < n < intSize pl -> n <= Z.max 0 cap ->
  exec body M (cellsOf (Slice 0 n)) k (start (lswIsSorted (Wd := pword pl) lt cap n) m0 mg0) st -> returned st r ->
  checkSpecBy lt n m0 r.
Proof. exact lsw_check_return. Qed.
Print Assumptions C18_is_sorted.

Theorem C18_is_sorted_safe : forall pl T (lt : T -> T -> bool) cap body n m0 mg0 M k st,
  - intSize pl < n < intSize pl -> n <= Z.max 0 cap ->
  exec body M (cellsOf (Slice 0 n)) k (start (lswIsSorted (Wd := pword pl) lt cap n) m0 mg0) st ->
  thr st = [] /\ chans (sh st) = 0 /\ Z.of_nat k <= 4 * Z.max 0 n + 4 /\ ~ panicked st /\
  (forall x w, In (Some (x, w)) (accesses st) -> w = false /\ 0 <= x < n) /\
  ((exists r, returned st r) \/ exists st', pstep body st st').
Proof. exact lsw_check_reach. Qed.
Print Assumptions C18_is_sorted_safe.

(** [9;8;7;3;5;4;2]: the largest unordered position is 4. *)
Example C18_example : exists k st, exec noProcs 1 (cellsOf (Slice 0 7)) k
  (start (lswIsSorted (Wd := pword plat64) (fun x y => y <? x) 7 7) (memOf 0 0 [9; 8; 7; 3; 5; 4; 2]) 1) st /\ returned st 4.
Proof. exact ex_is_sorted. Qed.

(** ** C19, C20, C21: IsSortedSlice and IsSortedLen *)

Theorem C19_is_sorted_slice : forall pl tn opt e s m0 mg0 M k st r, platOk pl ->
  In e [TI4; TI8; TU4; TU8; TS; TB] -> typedSlice pl e m0 s ->
  exec (procs pl tn e) M (cellsOf s) k (start (checkProg pl opt e s) m0 mg0) st -> returned st r ->
  checkSpec e s m0 r.
Proof. exact check_slice. Qed.
Print Assumptions C19_is_sorted_slice.

Theorem C20_is_sorted_floats : forall pl tn opt e s m0 mg0 M k st r, platOk pl ->
  In e [TF4; TF8] -> typedSlice pl e m0 s ->
  exec (procs pl tn e) M (cellsOf s) k (start (checkProg pl opt e s) m0 mg0) st -> returned st r ->
  checkSpecF e opt s m0 r.
Proof. exact check_floats. Qed.
Print Assumptions C20_is_sorted_floats.

Theorem C21_is_sorted_len : forall pl tn opt e s m0 mg0 M k st r, platOk pl ->
  In e [TLenS; TLenB] -> typedSlice pl e m0 s ->
  exec (procs pl tn e) M (cellsOf s) k (start (checkProg pl opt e s) m0 mg0) st -> returned st r ->
  checkSpec e s m0 r.
Proof. exact check_len. Qed.
Print Assumptions C21_is_sorted_len.

(** None of them writes, panics, starts anything or runs longer than a linear number of
    steps; all return. *)
Theorem C19_C20_C21_safe : forall pl tn opt e s m0 mg0 M k st, platOk pl -> typedSlice pl e m0 s ->
  exec (procs pl tn e) M (cellsOf s) k (start (checkProg pl opt e s) m0 mg0) st ->
  thr st = [] /\ chans (sh st) = 0 /\ Z.of_nat k <= 8 * len s + 16 /\ ~ panicked st /\
  (forall x w, In (Some (x, w)) (accesses st) -> w = false /\ cellsOf s x) /\
  (forall i, cellsOf s i -> mem (sh st) i = m0 i) /\
  ((exists r, returned st r) \/ exists st', pstep (procs pl tn e) st st').
Proof. exact check_reach. Qed.
Print Assumptions C19_C20_C21_safe.

(** int64 patterns of -1, 3, 2, 7: largest unordered position 2.  float64 with NaNs last:
    sorted for NaNlarge, not for NaNsmall. *)
Example C19_C20_example :
  (typedSlice plat64 TI8 chkMem (Slice 0 4) /\ exists k st, exec (procs plat64 tiny TI8) 1 (cellsOf (Slice 0 4)) k
     (start (checkProg plat64 1 TI8 (Slice 0 4)) chkMem 1) st /\ returned st 2) /\
  (typedSlice plat64 TF8 chkMemF (Slice 0 4) /\
   (exists k st, exec (procs plat64 tiny TF8) 1 (cellsOf (Slice 0 4)) k
     (start (checkProg plat64 1 TF8 (Slice 0 4)) chkMemF 1) st /\ returned st 0) /\
   (exists k st, exec (procs plat64 tiny TF8) 1 (cellsOf (Slice 0 4)) k
     (start (checkProg plat64 (-1) TF8 (Slice 0 4)) chkMemF 1) st /\ returned st 3)).
Proof. exact (conj ex_check_int ex_check_float). Qed.

Example C21_example : typedSlice plat64 TLenB aMem sSlice /\ exists k st, exec (procs plat64 tiny TLenB) 1 (cellsOf sSlice) k
  (start (checkProg plat64 1 TLenB sSlice) aMem 1) st /\ returned st 49.
Proof. exact (conj ex_a_typed ex_check_len). Qed.

(** ** C22: the checkers accept what the sorters produce *)

Theorem C22_check_after_sort : forall pl tn opt e s m0 M k st M' m1 mg1 k' st' r, platOk pl -> tuningOk pl tn ->
  typedSlice pl e m0 s -> sortable e opt (contents m0 s) ->
  reach (typedCall pl tn opt e s m0) M k st -> returned st tt ->
  (forall i, cellsOf s i -> m1 i = mem (sh st) i) ->
  exec (procs pl tn e) M' (cellsOf s) k' (start (checkProg pl opt e s) m1 mg1) st' -> returned st' r -> r = 0.
Proof. exact check_after_sort. Qed.
Print Assumptions C22_check_after_sort.

Theorem C22_lesswap_check_after_sort : forall pl tn T (lt : T -> T -> bool) cap n m0 M k st M' cap' body m1 mg1 k' st' r,
  platOk pl -> tuningOk pl tn -> weakOrder lt -> 0 <= n <= cap -> 11 * n + 18 < 10 * intSize pl -> n <= cap' ->
  reach (lswCall pl tn lt cap n m0) M k st -> returned st tt ->
  (forall i, cellsOf (Slice 0 n) i -> m1 i = mem (sh st) i) ->
  exec body M' (cellsOf (Slice 0 n)) k' (start (lswIsSorted (Wd := pword pl) lt cap' n) m1 mg1) st' -> returned st' r -> r = 0.
Proof. exact lswCheck_after_sort. Qed.
Print Assumptions C22_lesswap_check_after_sort.

Example C22_example : (typedSlice plat64 TF8 fMem64 fSlice64 /\ sortable TF8 1 (contents fMem64 fSlice64) /\
  exists k st, reach (fCall64 1) 3 k st /\ returned st tt) /\
  sortCall plat64 tiny pCall /\ exists k st, reach pCall 3 k st /\ returned st tt.
Proof.
  split; [split; [exact ex_f64_typed|]; split; [left; reflexivity|]|split; [exact ex_lsw_call|]].
  - destruct ex_f64_last as (k & st & H & R & _). eauto.
  - destruct ex_lsw_run as (k & st & H & R & _). eauto.
Qed.

(** ** C23: type dispatch *)

Theorem C23_dispatch_slice : forall wb t e, wb = 4 \/ wb = 8 -> rwf t ->
  (dispatchSlice wb t = Some e <-> docSlice wb t e).
Proof. exact dispatchSlice_doc. Qed.
Print Assumptions C23_dispatch_slice.

Theorem C23_dispatch_len : forall wb t e, wb = 4 \/ wb = 8 -> rwf t ->
  (dispatchLen wb t = Some e <-> docLen t e).
Proof. exact dispatchLen_doc. Qed.
Print Assumptions C23_dispatch_len.

(** SortSlice and SortLen ([byLen]) as a whole: an argument of a documented type runs the sorter
    of that type on the slice; any other argument, and nil ([t = None]), panics before anything
    is read, written or started. *)
Theorem C23_sort : forall pl tn opt byLen t, wb pl = 4 \/ wb pl = 8 -> (forall t', t = Some t' -> rwf t') ->
  (forall e, docArg byLen (wb pl) t e -> apiSort pl tn opt byLen t = existT _ e (sortProg pl tn opt e)) /\
  ((forall e, ~ docArg byLen (wb pl) t e) -> forall s body M (Rg : Z -> Prop) m0 mg0 k st,
     exec body M Rg k (start (projT2 (apiSort pl tn opt byLen t) s) m0 mg0) st ->
     k = O /\ panicked st /\ thr st = [] /\ chans (sh st) = 0 /\ forall i, Rg i -> mem (sh st) i = m0 i).
Proof. exact api_sort. Qed.
Print Assumptions C23_sort.

Theorem C23_check : forall pl opt byLen t, wb pl = 4 \/ wb pl = 8 -> (forall t', t = Some t' -> rwf t') ->
  (forall e, docArg byLen (wb pl) t e -> apiCheck pl opt byLen t = existT _ e (checkProg pl opt e)) /\
  ((forall e, ~ docArg byLen (wb pl) t e) -> forall s body M (Rg : Z -> Prop) m0 mg0 k st,
     exec body M Rg k (start (projT2 (apiCheck pl opt byLen t) s) m0 mg0) st ->
     k = O /\ panicked st /\ thr st = [] /\ chans (sh st) = 0 /\ forall i, Rg i -> mem (sh st) i = m0 i).
Proof. exact api_check. Qed.
Print Assumptions C23_check.

(** []unsafe.Pointer on 32 bits; [][]byte; [][][]string by length; [][]int64 and []bool
    are refused. *)
Example C23_example : dispatchSlice 4 (RSlice rUnsafePointer) = Some TU4 /\
  dispatchSlice 8 (RSlice (RSlice rUint8)) = Some TB /\ dispatchLen 8 (RSlice (RSlice (RSlice rString))) = Some TLenB /\
  dispatchSlice 8 (RSlice (RSlice rInt64)) = None /\ dispatchSlice 8 (RSlice (ROther 1)) = None /\
  docArg false 8 (Some (RSlice rPointer)) TU8 /\ (forall e, ~ docArg true 8 (Some (RSlice rInt)) e) /\
  projT1 (apiSort plat64 shipped 1 true (Some (RSlice rString))) = TLenS.
Proof.
  do 5 (split; [reflexivity|]). split; [apply doc_word8; simpl; auto|]. split; [|reflexivity].
  intros e H. inversion H.
Qed.

(** ** C24: the result depends on the input only *)

Theorem C24_same_result : forall pl pl' tn tn' e opt s m0 M k st M' k' st', platOk pl -> platOk pl' ->
  tuningOk pl tn -> tuningOk pl' tn' -> typedSlice pl e m0 s -> typedSlice pl' e m0 s -> sortable e opt (contents m0 s) ->
  reach (typedCall pl tn opt e s m0) M k st -> returned st tt ->
  reach (typedCall pl' tn' opt e s m0) M' k' st' -> returned st' tt ->
  Forall2 (same e) (contents (mem (sh st)) s) (contents (mem (sh st')) s).
Proof. exact typed_same. Qed.
Print Assumptions C24_same_result.

Theorem C24_lesswap_same_result : forall pl pl' tn tn' T (lt : T -> T -> bool) cap n m0 M k st M' k' st',
  platOk pl -> platOk pl' -> tuningOk pl tn -> tuningOk pl' tn' ->
  weakOrder lt -> 0 <= n <= cap -> 11 * n + 18 < 10 * intSize pl -> 11 * n + 18 < 10 * intSize pl' ->
  reach (lswCall pl tn lt cap n m0) M k st -> returned st tt ->
  reach (lswCall pl' tn' lt cap n m0) M' k' st' -> returned st' tt ->
  Forall2 (sameBy lt) (contents (mem (sh st)) (Slice 0 n)) (contents (mem (sh st')) (Slice 0 n)).
Proof. exact lsw_same. Qed.
Print Assumptions C24_lesswap_same_result.

Example C24_example : typedSlice plat64 TI8 exMem exSlice /\ finished exCall 3 2 exSorted exSlice /\
  (exists k st, reach exCall 1 k st /\ returned st tt) /\
  platOk plat32 /\ tuningOk plat32 tiny /\ typedSlice plat32 TI8 exMem exSlice /\ finished exCall32 3 2 exSorted exSlice.
Proof.
  exact (conj ex_int_typed (conj ex_int_run (conj ex_int_single (conj plat32_ok (conj tiny_ok32 (conj ex_int_typed32 ex_int_run32)))))).
Qed.

(** ** C25: concurrent calls *)

(** Live changes of MaxGor and of foreign memory are part of [reach] in every theorem
    above.  Two calls on disjoint collections: *)
Theorem C25_two_calls : forall pl tn T (C1 C2 : call T) M s1 s2, platOk pl -> tuningOk pl tn ->
  sortCall pl tn C1 -> sortCall pl tn C2 -> (forall i, cCells C1 i -> cCells C2 i -> False) ->
  reach2 C1 C2 M s1 s2 ->
  mem (sh s1) = mem (sh s2) /\
  (returned s1 tt -> cGoal C1 (mem (sh s1))) /\ (returned s2 tt -> cGoal C2 (mem (sh s2))) /\
  ~ panicked s1 /\ ~ panicked s2 /\ ~ race s1 /\ ~ race s2 /\
  (forall x w x' w', In (Some (x, w)) (accesses s1) -> In (Some (x', w')) (accesses s2) -> x <> x') /\
  (returned s1 tt \/ exists s1', pstep (cProcs C1) s1 s1') /\
  (returned s2 tt \/ exists s2', pstep (cProcs C2) s2 s2').
Proof. exact two_calls. Qed.
Print Assumptions C25_two_calls.

Example C25_example : sortCall plat64 tiny exCall /\ sortCall plat64 tiny exCall2 /\
  (forall i, cCells exCall i -> cCells exCall2 i -> False) /\
  exists s1 s2, reach2 exCall exCall2 3 s1 s2 /\ (1 <= length (thr s1))%nat /\ (1 <= length (thr s2))%nat.
Proof. exact (conj ex_int_call ex_two). Qed.

(** Any number of calls, beginning and ending at any time, maybe on a collection that has been
    sorted before: while one is in progress it behaves as if it were alone; when it has returned,
    what it leaves behind does no harm. *)
Theorem C25_many_calls : forall pl tn T (C : nat -> call T) M w mg S, platOk pl -> tuningOk pl tn ->
  (forall i, sortCall pl tn (C i)) -> world C M w mg S ->
  (forall i s, S i = Busy s ->
     (exists k, reach (C i) M k (share s w mg)) /\ ~ panicked s /\ ~ race s /\
     (returned s tt -> cGoal (C i) w) /\
     (returned s tt \/ exists s', pstep (cProcs (C i)) (share s w mg) s')) /\
  (forall i j s s' x b x' b', S i = Busy s -> S j = Busy s' -> i <> j ->
     In (Some (x, b)) (accesses s) -> In (Some (x', b')) (accesses s') -> x <> x') /\
  (forall i s, S i = Over s -> ~ panicked s /\ (forall x b, ~ In (Some (x, b)) (accesses s)) /\
     forall s', pstep (cProcs (C i)) (share s w mg) s' -> forall x, mem (sh s') x = w x).
Proof. intros pl tn T C M w mg S Hp Ht HC. exact (many_calls pl tn Hp Ht C HC M w mg S). Qed.
Print Assumptions C25_many_calls.

Example C25_many_example : (forall i, sortCall plat64 tiny (exCalls i)) /\
  exists w S s0 s1 s2, world exCalls 3 w 3 S /\
  S 0%nat = Over s0 /\ S 1%nat = Busy s1 /\ S 2%nat = Busy s2 /\
  ~ returned s1 tt /\ (1 <= length (thr s1))%nat /\ ~ returned s2 tt /\ (1 <= length (thr s2))%nat.
Proof. exact (conj ex_calls ex_world). Qed.

(** ** C26: NaNignore *)

Theorem C26_nan_free : forall pl tn opt e s m0 M k st, platOk pl -> tuningOk pl tn ->
  typedSlice pl e m0 s -> Forall (fun y => ~ nan e y) (contents m0 s) ->
  reach (typedCall pl tn opt e s m0) M k st -> returned st tt ->
  Permutation (contents (mem (sh st)) s) (contents m0 s) /\
  StronglySorted (le e) (contents (mem (sh st)) s).
Proof. exact sorted_nanfree. Qed.
Print Assumptions C26_nan_free.

(** A slice of NaNs (any payloads) longer than MaxLenIns that is sorted in the caller's
    goroutine: whatever the call has done, it has not returned and can go on. *)
Theorem C26_nan_ignore_diverges : forall pl tn e opt s m0 M k st, isFloat e = true -> opt <> 1 -> opt <> -1 ->
  tuningOk pl tn -> maxLenIns tn < len s < intSize pl -> Forall (nan e) (contents m0 s) ->
  (len s < 2 * (maxLenRec tn + 1) \/ M <= 1) ->
  reach (typedCall pl tn opt e s m0) M k st ->
  (forall r, ~ returned st r) /\ ~ panicked st /\
  exists st', pstep (cProcs (typedCall pl tn opt e s m0)) st st'.
Proof. exact nan_never_returns. Qed.
Print Assumptions C26_nan_ignore_diverges.

Example C26_example : (typedSlice plat64 TF4 f32Mem f32Slice /\ Forall (fun y => ~ nan TF4 y) (contents f32Mem f32Slice) /\
  exists k st, reach f32Call 3 k st /\ returned st tt /\ (1 <= length (thr st))%nat) /\
  tuningOk plat64 shipped /\ maxLenIns shipped < len (Slice 0 100) < 2 ^ 63 /\
  Forall (nan TF4) (contents (fun i => nan32 + i) (Slice 0 100)) /\
  100 < 2 * (maxLenRec shipped + 1).
Proof.
  split; [exact (conj ex_f32_typed (conj ex_f32_nanfree ex_f32_run))|].
  split; [exact shipped_ok|]. split; [cbn; lia|]. split; [|cbn; lia].
  apply Forall_forall. intros x Hx. unfold contents in Hx. apply in_map_iff in Hx. destruct Hx as (n & <- & Hn).
  apply in_seq in Hn. change (Z.to_nat (len (Slice 0 100))) with 100%nat in Hn.
  do 100 (destruct n as [|n]; [split; vm_compute; [reflexivity|discriminate]|]). lia.
Qed.

(** ** C27: degenerate lengths *)

Theorem C27_sort_degenerate : forall T (lt : T -> T -> bool) cap pl tn n (m0 : Z -> T) mg0 M Rg k st,
  tuningOk pl tn -> - intSize pl < n <= 1 ->
  exec (lswBody (Wd := pword pl) lt cap tn (mI pl)) M Rg k (start (lswSort (Wd := pword pl) lt cap tn (mI pl) n) m0 mg0) st ->
  k = O /\ returned st tt /\ thr st = [] /\ chans (sh st) = 0.
Proof. exact @lswSort_degenerate. Qed.
Print Assumptions C27_sort_degenerate.

Theorem C27_is_sorted_degenerate : forall pl T (lt : T -> T -> bool) cap body n m0 mg0 M Rg k st,
  platOk pl -> - intSize pl < n <= 1 -> exec body M Rg k (start (lswIsSorted (Wd := pword pl) lt cap n) m0 mg0) st ->
  (k <= 1)%nat /\ (forall x w, ~ In (Some (x, w)) (accesses st)) /\ ~ panicked st /\
  (returned st 0 \/ exists st', pstep body st st') /\ forall r, returned st r -> r = 0.
Proof. exact @lswIsSorted_tiny. Qed.
Print Assumptions C27_is_sorted_degenerate.

Theorem C27_slices_degenerate : forall pl tn opt e s m0 M k st, tuningOk pl tn -> 0 <= len s <= 1 ->
  reach (typedCall pl tn opt e s m0) M k st ->
  thr st = [] /\ chans (sh st) = 0 /\ (k <= 8)%nat /\ ~ panicked st /\
  (forall x w, In (Some (x, w)) (accesses st) -> w = false /\ cellsOf s x) /\
  (returned st tt \/ exists st', pstep (procs pl tn e) st st').
Proof. exact typed_tiny. Qed.
Print Assumptions C27_slices_degenerate.

(** For the smallest int, n-1 wraps around: Sort and IsSorted call Lesswap with an index
    that is not in the collection. *)
Theorem C27_sort_min_int_refuted : forall pl, In pl [plat32; plat64] ->
  exists k s, reach (minIntCall pl) 1 k s /\ panicked s.
Proof. exact minInt_sort. Qed.
Print Assumptions C27_sort_min_int_refuted.

Theorem C27_is_sorted_min_int_refuted : forall pl, In pl [plat32; plat64] -> exists k s,
  exec (lswBody (Wd := pword pl) zlt 100 shipped (mI pl)) 1 (cellsOf (Slice 0 0)) k
    (start (lswIsSorted (Wd := pword pl) zlt 100 (- intSize pl)) (fun i => i) 1) s /\ panicked s.
Proof. exact minInt_check. Qed.
Print Assumptions C27_is_sorted_min_int_refuted.

Example C27_example : - 2 ^ 63 < - 17 <= 1 /\ tuningOk plat64 shipped /\
  exists k st, reach (typedCall plat64 shipped 1 TI8 (Slice 3 1) (fun i => i)) 3 k st /\ returned st tt.
Proof. split; [lia|]. split; [exact shipped_ok|exact ex_one]. Qed.

(** ** C28: tuning parameters *)

Theorem C28_every_tuning : forall pl tn, tuningOk pl tn -> forall T (C : call T) M k s, platOk pl -> sortCall pl tn C ->
  reach C M k s ->
  ~ panicked s /\ ~ race s /\ Z.of_nat k <= 100 * cLen C * cLen C + 6 * cLen C + 20 /\
  ((exists r, returned s r) \/ exists s', pstep (cProcs C) s s') /\
  (returned s tt -> cGoal C (mem (sh s))).
Proof. exact every_tuning. Qed.
Print Assumptions C28_every_tuning.

(** Those parameters are the ones accepted by init, as long as nothing overflows. *)
Theorem C28_init : forall pl mg tn, platOk pl -> 2 * maxLenIns tn < intSize pl -> 2 * (maxLenRec tn + 1) < intSize pl ->
  (initOk pl mg tn = true <-> 0 < mg < 4097 /\ tuningOk pl tn).
Proof. exact TypedApi.init_exact. Qed.
Print Assumptions C28_init.

Theorem C28_shipped : forall pl, platOk pl -> tuningOk pl shipped /\ initOk pl shippedMaxGor shipped = true.
Proof. exact shipped_every. Qed.
Print Assumptions C28_shipped.

(** A parameter tuple that passes the package's check, but for which 2*(MaxLenRec+1)
    overflows: sorting an empty slice panics. *)
Theorem C28_huge_tuning_refuted : forall pl, In pl [plat32; plat64] ->
  initOk pl shippedMaxGor (huge pl) = true /\ exists k s, reach (hugeCall pl) 3 k s /\ panicked s.
Proof. exact (fun pl h => conj (huge_init pl h) (huge_panic pl h)). Qed.
Print Assumptions C28_huge_tuning_refuted.

Example C28_example : tuningOk plat64 tiny /\ sortCall plat64 tiny exCall.
Proof. exact (conj tiny_ok ex_int_call). Qed.

(** ** C29: recursion depth *)

Theorem C29_depth : forall pl tn T (C : call T) M k s, platOk pl -> tuningOk pl tn -> sortCall pl tn C ->
  reach C M k s -> Z.of_nat (depth (main s)) <= Z.log2 (cLen C) + 2 /\
  forall c, In c (thr s) -> Z.of_nat (depth c) <= Z.log2 (cLen C) + 2.
Proof. exact (fun pl tn T C M k s a b c d => g_depth pl tn a b C c M k s d). Qed.
Print Assumptions C29_depth.

Example C29_example : sortCall plat64 tiny exCall /\ (exists k, reach exCall 3 k exMid) /\ depth (main exMid) = 2%nat.
Proof. exact (conj ex_int_call (conj (proj1 ex_int_mid) (proj1 (proj2 (proj2 (proj2 (proj2 (proj2 ex_int_mid)))))))). Qed.

(** ** C30: samples *)

Theorem C30_samples_optimal : forall pl slen n first step last, 2 <= n -> 2 * n <= slen -> slen < 2 * intSize pl ->
  minMaxSample (Wd := pword pl) slen n = (first, step, last) ->
  valid_samples slen n first step /\ last = first + (n - 1) * step /\
  forall f' st' D, valid_samples slen n f' st' -> within slen n f' st' D -> within slen n first step D.
Proof. exact samples_optimal. Qed.
Print Assumptions C30_samples_optimal.

Theorem C30_four_agrees : forall pl slen, platOk pl -> 8 <= slen < 2 ^ 32 ->
  minMaxFour slen = (fst (fst (minMaxSample (Wd := pword pl) slen 4)), snd (fst (minMaxSample (Wd := pword pl) slen 4))).
Proof. exact four_agrees. Qed.
Print Assumptions C30_four_agrees.

Example C30_example : minMaxSample (Wd := pword plat32) 1000003 12 = (41664, 83334, 958338) /\ minMaxFour 1000003 = (125000, 250001).
Proof. split; vm_compute; reflexivity. Qed.

(** ** C31: every split is proper *)

Theorem C31_split : forall pl tn e s m0 mg0 M k st r, platOk pl -> typedSlice pl e m0 s ->
  Forall (fun x => ~ nan e x) (contents m0 s) ->
  (9 <= len s /\ exec (procs pl tn e) M (cellsOf s) k (start (splitShort pl e s) m0 mg0) st \/
   16 <= len s /\ exec (procs pl tn e) M (cellsOf s) k (start (splitLong pl e s) m0 mg0) st) ->
  returned st r -> properSplit e s m0 (mem (sh st)) r.
Proof. exact typed_split. Qed.
Print Assumptions C31_split.

Theorem C31_lesswap_split : forall pl tn T (lt lq : T -> T -> bool) cap lo hi m0 mg0 M k st l, platOk pl -> consistent lt lq ->
  0 <= lo -> hi < cap -> 11 * hi + 29 < 10 * intSize pl -> let s := Slice lo (hi - lo + 1) in
  (6 <= len s /\ exec (lswBody (Wd := pword pl) lt cap tn (mI pl)) M (cellsOf s) k (start (lswSplitShort (Wd := pword pl) lt cap lo hi) m0 mg0) st \/
   18 <= len s /\ exec (lswBody (Wd := pword pl) lt cap tn (mI pl)) M (cellsOf s) k (start (lswSplitLong (Wd := pword pl) lt cap (mI pl) lo hi) m0 mg0) st) ->
  returned st l -> properSplitBy lq s m0 (mem (sh st)) (l - lo).
Proof. exact lsw_split. Qed.
Print Assumptions C31_lesswap_split.

(** The first split of a concurrent sort is made by two goroutines. *)
Theorem C31_concurrent_split : forall pl tn e s m0 mg0 M k st r, platOk pl -> typedSlice pl e m0 s ->
  Forall (fun x => ~ nan e x) (contents m0 s) -> 24 <= len s -> 0 <= mg0 <= M ->
  exec (procs pl tn e) M (cellsOf s) k (start (splitConc pl e s) m0 mg0) st ->
  returned st r -> properSplit e s m0 (mem (sh st)) r.
Proof. exact typed_conc_split. Qed.
Print Assumptions C31_concurrent_split.

Theorem C31_lesswap_concurrent_split : forall pl tn T (lt lq : T -> T -> bool) cap lo hi m0 mg0 M k st l, platOk pl ->
  consistent lt lq -> 0 <= lo -> hi < cap -> 11 * hi + 29 < 10 * intSize pl -> let s := Slice lo (hi - lo + 1) in
  18 <= len s -> 0 <= mg0 <= M ->
  exec (lswBody (Wd := pword pl) lt cap tn (mI pl)) M (cellsOf s) k (start (lswSplitConc pl lt cap lo hi) m0 mg0) st ->
  returned st l -> properSplitBy lq s m0 (mem (sh st)) (l - lo).
Proof. exact lsw_conc_split. Qed.
Print Assumptions C31_lesswap_concurrent_split.

Example C31_example :
  (exists k st, exec (procs plat64 tiny TI8) 1 (cellsOf exSlice) k (start (splitLong plat64 TI8 exSlice) exMem 1) st /\
     exists r, returned st r) /\
  (exists k st, exec (lswBody (Wd := pword plat64) pairGt 70 tiny bitMean) 1 (cellsOf pSlice) k
     (start (lswSplitShort (Wd := pword plat64) pairGt 70 0 59) pMem 1) st /\ exists r, returned st r).
Proof. exact ex_split. Qed.

Example C31_concurrent_example :
  (exists k st, exec (procs plat64 tiny TI8) 3 (cellsOf exSlice) k (start (splitConc plat64 TI8 exSlice) exMem 3) st /\
     (exists r, returned st r) /\ length (thr st) = 1%nat) /\
  (exists k st, exec (lswBody (Wd := pword plat64) pairGt 70 tiny bitMean) 3 (cellsOf pSlice) k
     (start (lswSplitConc plat64 pairGt 70 0 59) pMem 3) st /\ (exists r, returned st r) /\ length (thr st) = 1%nat).
Proof. exact ex_conc_split. Qed.

(** ** C32: stability of short inputs *)

Theorem C32_stable : forall pl tn opt e s m0 M k st r, platOk pl -> tuningOk pl tn -> typedSlice pl e m0 s ->
  Forall (fun x => ~ nan e x) (contents m0 s) ->
  let C := typedCall pl tn opt e s m0 in
  cLen C <= (if cFC C then maxLenInsFC tn else maxLenIns tn) ->
  reach C M k st -> returned st r -> stable e (contents m0 s) (contents (mem (sh st)) s).
Proof. exact stable_short. Qed.
Print Assumptions C32_stable.

Theorem C32_lesswap_stable : forall pl tn T (lt : T -> T -> bool) cap n m0 M k st, platOk pl -> tuningOk pl tn ->
  irreflexive lt -> 0 <= n <= cap -> 11 * n + 18 < 10 * intSize pl -> n <= maxLenInsFC tn ->
  reach (lswCall pl tn lt cap n m0) M k st -> returned st tt ->
  stableBy lt (contents m0 (Slice 0 n)) (contents (mem (sh st)) (Slice 0 n)).
Proof. exact lsw_stable. Qed.
Print Assumptions C32_lesswap_stable.

(** With NaNs the pre-pass that moves them exchanges +0 and -0. *)
Theorem C32_nan_refuted : exists k s, reach stabCall 1 k s /\ returned s tt /\
  contents (mem (sh s)) (Slice 0 3) = [negZero32; 0; nan32] /\
  ~ stable TF4 (contents stabMem (Slice 0 3)) (contents (mem (sh s)) (Slice 0 3)).
Proof. exact nan_unstable. Qed.
Print Assumptions C32_nan_refuted.

(** Strings of equal length keep their order. *)
Example C32_example : exists k st, reach (typedCall plat64 shipped 1 TLenS sSlice sMem) 1 k st /\ returned st tt /\
  map sptr (firstn 10 (contents (mem (sh st)) sSlice)) = [0; 5; 10; 15; 20; 25; 30; 35; 40; 45].
Proof. exact ex_stable. Qed.

(** ** C33: Sort with a comparison that is no order *)

(** Only irreflexivity is assumed. *)
Theorem C33_any_comparison : forall pl tn T (lt : T -> T -> bool) cap n m0 M k st, platOk pl -> tuningOk pl tn ->
  irreflexive lt -> 0 <= n <= cap -> 11 * n + 18 < 10 * intSize pl ->
  let C := lswCall pl tn lt cap n m0 in reach C M k st ->
  ~ panicked st /\ ~ race st /\ (forall x w, In (Some (x, w)) (accesses st) -> 0 <= x < n) /\
  Z.of_nat k <= 100 * n * n + 6 * n + 20 /\
  (exists j st', exec (cProcs C) M (cCells C) j st st' /\ returned st' tt) /\
  (returned st tt -> Permutation (contents (mem (sh st)) (Slice 0 n)) (contents m0 (Slice 0 n)) /\
     forall c, In c (thr st) -> exiting c).
Proof. exact any_comparison. Qed.
Print Assumptions C33_any_comparison.

(** The result is sorted by every order the comparison is consistent with. *)
Theorem C33_consistent_order : forall pl tn T (lt lq : T -> T -> bool) cap n m0 M k st, platOk pl -> tuningOk pl tn ->
  consistent lt lq -> 0 <= n <= cap -> 11 * n + 18 < 10 * intSize pl ->
  reach (lswCall pl tn lt cap n m0) M k st -> returned st tt ->
  Permutation (contents (mem (sh st)) (Slice 0 n)) (contents m0 (Slice 0 n)) /\
  noSmallerAfter lq (contents (mem (sh st)) (Slice 0 n)).
Proof. exact sorted_by. Qed.
Print Assumptions C33_consistent_order.

(** With <= instead of <: an unsorted result, and a data race. *)
Theorem C33_reflexive_refuted :
  (exists k s, reach leCall 1 k s /\ returned s tt /\
     contents (mem (sh s)) (Slice 0 14) = [0; 0; 0; 1; 1; 2; 3; 1; 2; 3; 3; 4; 4; 4]) /\
  exists k s, reach leCall2 2 k s /\ race s.
Proof. exact (conj le_unsorted le_race). Qed.
Print Assumptions C33_reflexive_refuted.

Example C33_example : consistent pairOdd pairGt /\ ~ weakOrder pairOdd /\
  exists k st, reach oddCall 3 k st /\ returned st tt /\ (1 <= length (thr st))%nat /\
  map fst (contents (mem (sh st)) pSlice) = repeat 4 12 ++ repeat 3 12 ++ repeat 2 12 ++ repeat 1 12 ++ repeat 0 12.
Proof. exact (conj (proj1 ex_odd) (conj (proj2 ex_odd) ex_odd_run)). Qed.

(** ** C34: the Go memory model *)

(** Every execution has a trace, and the traces describe nothing but executions. *)
Theorem C34_traces : forall T (C : call T) M k s, reach C M k s <-> exists tr, length tr = k /\ traced C M tr s.
Proof. exact @reach_traced. Qed.
Print Assumptions C34_traces.

(** All conflicting accesses to the elements are ordered by happens-before: those of the
    call among each other, with whatever the caller did before the call ([pre]), and, after
    the return, with whatever the caller does then ([post]). *)
Theorem C34_ordered : forall pl tn T (C : call T) M tr s pre, platOk pl -> tuningOk pl tn -> sortCall pl tn C ->
  traced C M tr s -> callerOnly pre ->
  ~ dataRace (pre ++ tr) /\
  forall post, returned s tt -> callerOnly post -> ~ dataRace (pre ++ tr ++ post).
Proof. exact traced_norace. Qed.
Print Assumptions C34_ordered.

Example C34_example : (exists tr st, traced exCall 3 tr st /\ returned st tt /\ (exists p, In (EvGo p 1) tr) /\
    callerOnly [EvWrite 0 5; EvRead 0 5]) /\
  dataRace [EvGo 0 1; EvWrite 0 5; EvWrite 1 5].
Proof. exact (conj ex_trace race_without_order). Qed.

(** ** C35: NaNs under NaNignore *)

(** Nothing is assumed about the values: floats may contain any NaNs, whatever the option.
    The call may then not return (C26), but it does no harm. *)
Theorem C35_no_harm : forall pl tn opt e s m0, platOk pl -> tuningOk pl tn -> typedSlice pl e m0 s ->
  let C := typedCall pl tn opt e s m0 in
  forall M k st, reach C M k st ->
  ~ panicked st /\ (forall x w, In (Some (x, w)) (accesses st) -> cellsOf s x) /\
  (forall st', pstep (cProcs C) st st' -> forall i, ~ cellsOf s i -> mem (sh st') i = mem (sh st) i) /\
  0 <= chans (sh st) <= 1 /\
  Z.of_nat (depth (main st)) <= Z.log2 (len s) + 2 /\
  (forall c, In c (thr st) -> Z.of_nat (depth c) <= Z.log2 (len s) + 2) /\
  ((exists r, returned st r) \/ exists st', pstep (cProcs C) st st') /\
  (returned st tt -> Permutation (contents (mem (sh st)) s) (contents m0 s) /\
     forall x w, ~ In (Some (x, w)) (accesses st)).
Proof. exact any_call. Qed.
Print Assumptions C35_no_harm.

Theorem C35_no_race : forall pl tn opt e s m0, platOk pl -> tuningOk pl tn -> typedSlice pl e m0 s ->
  forall M tr st pre, traced (typedCall pl tn opt e s m0) M tr st -> callerOnly pre ->
  ~ dataRace (pre ++ tr) /\
  forall post, returned st tt -> callerOnly post -> ~ dataRace (pre ++ tr ++ post).
Proof. exact any_norace. Qed.
Print Assumptions C35_no_race.

Example C35_example : typedSlice plat64 TF4 mixMem f32Slice /\
  map nan32b (firstn 9 (contents mixMem f32Slice)) = repeat false 8 ++ [true] /\
  exists k st, reach mixCall 3 k st /\ returned st tt /\ (2 <= length (thr st))%nat.
Proof. exact (conj ex_mix_typed (conj ex_mix_nan ex_mix_run)). Qed.

(** ** C36: Sort only exchanges elements *)

(** Whenever nobody is about to write, in particular whenever the caller's comparison runs
    and nobody else is writing: all elements are there. *)
Theorem C36_permuted : forall pl tn T (lt : T -> T -> bool) cap n m0 M k st, platOk pl -> tuningOk pl tn ->
  irreflexive lt -> 0 <= n <= cap -> 11 * n + 18 < 10 * intSize pl -> reach (lswCall pl tn lt cap n m0) M k st ->
  (forall x, ~ In (Some (x, true)) (accesses st)) ->
  Permutation (contents (mem (sh st)) (Slice 0 n)) (contents m0 (Slice 0 n)).
Proof. exact lsw_permuted. Qed.
Print Assumptions C36_permuted.

(** At any time: only the cells about to be written are yet to receive their elements. *)
Theorem C36_exchanges : forall pl tn T (lt : T -> T -> bool) cap n m0 M k st, platOk pl -> tuningOk pl tn ->
  irreflexive lt -> 0 <= n <= cap -> 11 * n + 18 < 10 * intSize pl -> reach (lswCall pl tn lt cap n m0) M k st ->
  exists v, Permutation (contents v (Slice 0 n)) (contents m0 (Slice 0 n)) /\
    forall x, 0 <= x < n -> ~ In (Some (x, true)) (accesses st) -> mem (sh st) x = v x.
Proof. exact lsw_keeps. Qed.
Print Assumptions C36_exchanges.

(** SortSlice makes no such promise: elements are held in variables. *)
Theorem C36_typed_refuted : exists k st, reach exCall 3 k st /\ (forall x, ~ In (Some (x, true)) (accesses st)) /\
  ~ Permutation (contents (mem (sh st)) exSlice) (contents exMem exSlice).
Proof. exact held. Qed.
Print Assumptions C36_typed_refuted.

Example C36_example : (exists k, reach pCall 3 k pMid) /\ isRet pMid = false /\
  accesses pMid = [Some (38, false); None; Some (38, false)] /\
  firstn 3 (contents pMem pSlice) <> firstn 3 (contents (mem (sh pMid)) pSlice).
Proof. exact ex_lsw_mid. Qed.

(** ** C37: the guarantees under the Go memory model *)

(** Reads of elements may return any value that happens-before does not rule out ([weakly]):
    nothing new can happen. *)
Theorem C37_same : forall pl tn T (C : call T) M w, platOk pl -> tuningOk pl tn -> sortCall pl tn C -> 0 <= M ->
  weakly C M w ->
  exists s, traced C M (map fst (whist w)) s /\ main s = wmain w /\ thr s = wthr w /\
    ngor (sh s) = wngor w /\ chans (sh s) = wchans w /\
    forall x, cCells C x -> mem (sh s) x = latest (cInit C) (whist w) x.
Proof. exact weak_same. Qed.
Print Assumptions C37_same.

Theorem C37_runs : forall pl tn T (C : call T) M w, platOk pl -> tuningOk pl tn -> sortCall pl tn C -> 0 <= M ->
  weakly C M w ->
  Z.of_nat (length (whist w)) <= 100 * cLen C * cLen C + 6 * cLen C + 20 /\
  view (wmain w) <> HPanic /\ (forall c, In c (wthr w) -> view c <> HPanic) /\
  (view (wmain w) = HRet tt \/ exists w', wstep (cProcs C) M (cCells C) (cInit C) w w').
Proof. exact weak_runs. Qed.
Print Assumptions C37_runs.

(** Whatever the caller may see in the collection after the return, is sorted. *)
Theorem C37_sorted : forall pl tn T (C : call T) M w v, platOk pl -> tuningOk pl tn -> sortCall pl tn C -> 0 <= M ->
  weakly C M w -> view (wmain w) = HRet tt -> seenBy C w v -> cGoal C v.
Proof. exact weak_goal. Qed.
Print Assumptions C37_sorted.

(** Also for floats with NaNs under NaNignore, which are not sorted and for which the call may run
    forever (C26): no panic, no deadlock, and whatever the caller sees afterwards is a rearrangement. *)
Theorem C37_nans : forall pl tn opt e s m0, platOk pl -> tuningOk pl tn -> typedSlice pl e m0 s ->
  let C := typedCall pl tn opt e s m0 in
  forall M w, 0 <= M -> weakly C M w ->
  view (wmain w) <> HPanic /\ (forall c, In c (wthr w) -> view c <> HPanic) /\
  (view (wmain w) = HRet tt \/ exists w', wstep (cProcs C) M (cCells C) (cInit C) w w') /\
  (view (wmain w) = HRet tt -> forall v, seenBy C w v -> Permutation (contents v s) (contents m0 s)).
Proof. exact any_weak. Qed.
Print Assumptions C37_nans.

(** Conversely these executions include the sequentially consistent ones. *)
Theorem C37_includes : forall T (C : call T) M tr s, traced C M tr s ->
  exists w, weakly C M w /\ map fst (whist w) = tr /\ wmain w = main s /\ wthr w = thr s /\
    forall x, cCells C x -> latest (cInit C) (whist w) x = mem (sh s) x.
Proof. exact @strong_same. Qed.
Print Assumptions C37_includes.

(** A call that returns; and a program with a race, which sees a new value and then the old one. *)
Example C37_example : (exists w, weakly exCall 3 w /\ view (wmain w) = HRet tt /\
    (exists p, In (EvGo p 1) (map fst (whist w))) /\ seenBy exCall w (latest exMem (whist w))) /\
  exists w, wexec staleBody 1 (fun x => x = 0) (fun _ => 0) staleProg w /\ view (wmain w) = HRet (1, 0).
Proof. exact (conj ex_weak stale_read). Qed.

Example C37_nans_example : typedSlice plat64 TF4 mixMem f32Slice /\
  exists w, weakly mixCall 3 w /\ view (wmain w) = HRet tt /\ (2 <= length (wthr w))%nat.
Proof. exact (conj ex_mix_typed ex_mix_weak). Qed.

(** ** C38: what is in the collection while it is being sorted *)

(** In every state of every execution, also with NaNs: the slice holds an arrangement [v] of the
    original elements, but for at most one cell ([hole]) per goroutine that is still at work. *)
Theorem C38_one_each : forall pl tn opt e s m0, platOk pl -> tuningOk pl tn -> typedSlice pl e m0 s ->
  forall M k st, reach (typedCall pl tn opt e s m0) M k st ->
  exists v hole, Permutation (contents v s) (contents m0 s) /\
    (forall x, cellsOf s x ->
       (forall t c, hole t = Some x -> nth_error (main st :: thr st) t = Some c -> quiet c) -> mem (sh st) x = v x) /\
    (forall x, cellsOf s x -> In (mem (sh st) x) (contents m0 s)).
Proof. exact typed_keeps. Qed.
Print Assumptions C38_one_each.

Theorem C38_lesswap_one_each : forall pl tn T (lt : T -> T -> bool) cap n m0 M k st, platOk pl -> tuningOk pl tn ->
  irreflexive lt -> 0 <= n <= cap -> 11 * n + 18 < 10 * intSize pl -> reach (lswCall pl tn lt cap n m0) M k st ->
  exists v hole, Permutation (contents v (Slice 0 n)) (contents m0 (Slice 0 n)) /\
    (forall x, cellsOf (Slice 0 n) x ->
       (forall t c, hole t = Some x -> nth_error (main st :: thr st) t = Some c -> quiet c) -> mem (sh st) x = v x) /\
    (forall x, cellsOf (Slice 0 n) x -> In (mem (sh st) x) (contents m0 (Slice 0 n))).
Proof. exact lsw_keeps_most. Qed.
Print Assumptions C38_lesswap_one_each.

(** A reachable state in which an element is out of the slice. *)
Example C38_example : typedSlice plat64 TI8 exMem exSlice /\ (exists k, reach exCall 3 k exHeld) /\
  accesses exHeld = [Some (47, false); None; Some (24, false)] /\
  ~ Permutation (contents (mem (sh exHeld)) exSlice) (contents exMem exSlice).
Proof. exact (conj ex_int_typed ex_held). Qed.

(** ** C39: NaNoption assigned to during a call

    The call reads it twice, getting [o1] and [o2]. *)

(** NaNlarge and NaNsmall in any order but NaNsmall, NaNlarge: all is well; the first counts. *)
Theorem C39_live_option : forall pl tn o1 o2 e s m0 M k st, platOk pl -> tuningOk pl tn -> typedSlice pl e m0 s ->
  In o1 [1; -1] -> In o2 [1; -1] -> ~ (o1 = -1 /\ o2 = 1) ->
  let C := liveCall pl tn o1 o2 e s m0 in reach C M k st ->
  ~ panicked st /\ ~ race st /\ Z.of_nat k <= 100 * len s * len s + 6 * len s + 20 /\
  ((exists r, returned st r) \/ exists st', pstep (cProcs C) st st') /\
  (returned st tt -> Permutation (contents (mem (sh st)) s) (contents m0 s) /\
     inOrder e o1 (contents (mem (sh st)) s)).
Proof. exact live_total. Qed.
Print Assumptions C39_live_option.

(** Any values at all: without NaNs, as ever; with NaNs, no harm. *)
Theorem C39_live_nan_free : forall pl tn o1 o2 e s m0 M k st, platOk pl -> tuningOk pl tn -> typedSlice pl e m0 s ->
  Forall (fun y => ~ nan e y) (contents m0 s) ->
  let C := liveCall pl tn o1 o2 e s m0 in reach C M k st ->
  ~ panicked st /\ ~ race st /\ Z.of_nat k <= 100 * len s * len s + 6 * len s + 20 /\
  ((exists r, returned st r) \/ exists st', pstep (cProcs C) st st') /\
  (returned st tt -> Permutation (contents (mem (sh st)) s) (contents m0 s) /\
     StronglySorted (le e) (contents (mem (sh st)) s)).
Proof. exact live_nanfree. Qed.
Print Assumptions C39_live_nan_free.

Theorem C39_live_no_harm : forall pl tn o1 o2 e s m0 M k st, platOk pl -> tuningOk pl tn -> typedSlice pl e m0 s ->
  let C := liveCall pl tn o1 o2 e s m0 in reach C M k st ->
  ~ panicked st /\ (forall x w, In (Some (x, w)) (accesses st) -> cellsOf s x) /\
  ((exists r, returned st r) \/ exists st', pstep (cProcs C) st st') /\
  (returned st tt -> Permutation (contents (mem (sh st)) s) (contents m0 s) /\
     forall x w, ~ In (Some (x, w)) (accesses st)).
Proof. exact live_no_harm. Qed.
Print Assumptions C39_live_no_harm.

(** NaNsmall, then NaNlarge: SortSlice on NaNs does not return. *)
Theorem C39_small_then_large_diverges : forall pl tn e s m0 M k st, isFloat e = true ->
  tuningOk pl tn -> maxLenIns tn < len s < intSize pl -> Forall (nan e) (contents m0 s) ->
  (len s < 2 * (maxLenRec tn + 1) \/ M <= 1) ->
  let C := liveCall pl tn (-1) 1 e s m0 in reach C M k st ->
  (forall r, ~ returned st r) /\ ~ panicked st /\ exists st', pstep (cProcs C) st st'.
Proof. exact live_never_returns. Qed.
Print Assumptions C39_small_then_large_diverges.

(** IsSortedSlice likewise: exact for the first value, except for NaNsmall, NaNlarge, when it
    denies that two NaNs are in order. *)
Theorem C39_live_check : forall pl tn o1 o2 e s m0 mg0 M k st r, platOk pl -> typedSlice pl e m0 s ->
  In e [TF4; TF8] -> In o1 [1; -1] -> In o2 [1; -1] -> ~ (o1 = -1 /\ o2 = 1) ->
  exec (procs pl tn e) M (cellsOf s) k (start (checkLive pl o1 o2 e s) m0 mg0) st -> returned st r ->
  checkSpecF e o1 s m0 r.
Proof. exact live_checked. Qed.
Print Assumptions C39_live_check.

Theorem C39_check_small_then_large_refuted : typedSlice plat64 TF8 nanPair (Slice 0 2) /\
  inOrder TF8 1 (contents nanPair (Slice 0 2)) /\ inOrder TF8 (-1) (contents nanPair (Slice 0 2)) /\
  exists k st, exec (procs plat64 shipped TF8) 1 (cellsOf (Slice 0 2)) k
    (start (checkLive plat64 (-1) 1 TF8 (Slice 0 2)) nanPair 1) st /\ returned st 1.
Proof. exact live_check_wrong. Qed.
Print Assumptions C39_check_small_then_large_refuted.

Example C39_example : typedSlice plat64 TF8 fMem64 fSlice64 /\
  exists k st, reach (liveCall plat64 tiny 1 (-1) TF8 fSlice64 fMem64) 3 k st /\ returned st tt /\
  map nan64b (contents (mem (sh st)) fSlice64) = repeat false 51 ++ repeat true 9.
Proof. exact (conj ex_f64_typed ex_live). Qed.

(** ** C40: Search on the sorted collection

    Search(n, func(k int) bool { return p(a[k]) }) finds how many of the original elements p
    rejects; exactly these come first. *)

Theorem C40_search_sorted : forall pl tn opt e s m0 M k st (p : elem e -> bool) P (body : P -> cmd P bool unit) M' mg0 k' st' r,
  platOk pl -> tuningOk pl tn -> typedSlice pl e m0 s -> sortable e opt (contents m0 s) ->
  reach (typedCall pl tn opt e s m0) M k st -> returned st tt -> upward e opt p ->
  exec body M' (cellsOf (Slice 0 (len s))) k'
    (start (search (mI pl) (len s)) (fun i => p (mem (sh st) (off s + i))) mg0) st' -> returned st' r ->
  splitsAt p (len s) r (fun i => mem (sh st) (off s + i)) (contents m0 s).
Proof. exact (fun pl tn opt e s m0 M k st p P body => search_sorted pl tn opt e s m0 M k st p body). Qed.
Print Assumptions C40_search_sorted.

Theorem C40_search_lesswap_sorted : forall pl tn T (lt : T -> T -> bool) cap n m0 M k st (p : T -> bool) P (body : P -> cmd P bool unit) M' mg0 k' st' r,
  platOk pl -> tuningOk pl tn -> weakOrder lt -> 0 <= n <= cap -> 11 * n + 18 < 10 * intSize pl ->
  reach (lswCall pl tn lt cap n m0) M k st -> returned st tt ->
  (forall x y, lt y x = false -> p x = true -> p y = true) ->
  exec body M' (cellsOf (Slice 0 n)) k' (start (search (mI pl) n) (fun i => p (mem (sh st) i)) mg0) st' -> returned st' r ->
  splitsAt p n r (mem (sh st)) (contents m0 (Slice 0 n)).
Proof. exact (fun pl tn T lt cap n m0 M k st p P body => search_lsw_sorted pl tn T lt cap n m0 M k st p body). Qed.
Print Assumptions C40_search_lesswap_sorted.

Example C40_example : typedSlice plat64 TI8 exMem exSlice /\ upward TI8 1 ask10 /\
  exists k st, reach exCall 3 k st /\ returned st tt /\
  exists k' st', exec (@noProcs unit bool) 1 (cellsOf (Slice 0 (len exSlice))) k'
    (start (search (mI plat64) (len exSlice)) (fun i => ask10 (mem (sh st) (off exSlice + i))) 1) st' /\ returned st' 39.
Proof. exact (conj ex_int_typed ex_lookup). Qed.

(** ** C41: bytes

    Memory is an array of bytes, in either byte order; slices of any types lie in it, and any
    number of calls sort some of them, beginning and ending at any time.  [W] is memory now, [W0]
    memory when the call began. *)

(** A documented argument is sorted as a slice whose elements have the size of its own. *)
Theorem C41_layout : forall pl byLen t e, docArg byLen (wb pl) (Some (RSlice t)) e ->
  goSize (wb pl) t (esize pl e) /\ forall n, goSize (wb pl) t n -> n = esize pl e.
Proof.
  intros pl byLen t e H. exact (conj (layout pl byLen t e H) (fun n Hn => goSize_fun _ _ _ _ Hn (layout pl byLen t e H))).
Qed.
Print Assumptions C41_layout.

Theorem C41_bytes : forall pl be tn J M W mg S, platOk pl -> tuningOk pl tn -> bworld pl be tn J M W mg S ->
  (forall i W0 s, S i = JBusy (J i) W0 s ->
     (exists k, reach (jcall pl be tn (J i) W0) M k (share s (viewAs pl be (J i) W) mg)) /\ ~ panicked s /\ ~ race s /\
     (returned s tt \/ exists s', pstep (procs pl tn (jety (J i))) (share s (viewAs pl be (J i) W) mg) s') /\
     (returned s tt ->
        Permutation (contents (viewAs pl be (J i) W) (jslice (J i))) (contents (viewAs pl be (J i) W0) (jslice (J i))) /\
        inOrder (jety (J i)) (jopt (J i)) (contents (viewAs pl be (J i) W) (jslice (J i)))) /\
     (forall a, heap pl be (J i) W0 a -> W a = W0 a) /\
     (forall x, 0 <= x < jlen (J i) -> exists y, 0 <= y < jlen (J i) /\ forall o, 0 <= o < esize pl (jety (J i)) ->
        W (jbase (J i) + x * esize pl (jety (J i)) + o) = W0 (jbase (J i) + y * esize pl (jety (J i)) + o))) /\
  (forall i j W0 s W0' s' x b a, S i = JBusy (J i) W0 s -> S j = JBusy (J j) W0' s' -> i <> j ->
     In (Some (x, b)) (accesses s) -> block pl (J i) x a ->
     ~ heap pl be (J j) W0' a /\ forall x' b', In (Some (x', b')) (accesses s') -> ~ block pl (J j) x' a) /\
  (forall i s, S i = JOver (J i) s -> ~ panicked s /\ (forall x b, ~ In (Some (x, b)) (accesses s)) /\
     forall s', pstep (procs pl tn (jety (J i))) (share s (viewAs pl be (J i) W) mg) s' ->
     forall a, fill pl be (J i) W (mem (sh s')) a = W a).
Proof. intros pl be tn J M W mg S Hp Ht. exact (many_bytes pl be tn Hp Ht J M W mg S). Qed.
Print Assumptions C41_bytes.

(** int32s and strings sorted at the same time; then the int32s again, as uint64s. *)
Example C41_example : exists S W1 W2 s0 s1 s2, bworld plat64 false tiny exJobs 3 (fst exB3) 3 S /\
  S 0%nat = JOver (exJobs 0) s0 /\ S 1%nat = JBusy (exJobs 1) W1 s1 /\ S 2%nat = JBusy (exJobs 2) W2 s2 /\
  ~ returned s1 tt /\ returned s2 tt.
Proof. exact ex_bytes. Qed.

Example C41_example_result :
  contents (viewAs plat64 false (exJobs 0) (fst exB2)) (Slice 0 6) = map (fun z => z mod 2 ^ 32) [-2147483648; -2; -1; 3; 7; 263] /\
  contents (viewAs plat64 false (exJobs 2) (fst exB3)) (Slice 0 3) = [17179869183; 1129576398855; 18446744067267100672].
Proof. exact exB_sorted. Qed.

(** ** C42: elements need not be accessed at once

    An element consists of [np] parts (machine words, bytes, ...); an access to it takes place part
    by part, in any order and interleaved with anything. *)

Theorem C42_parts : forall pl tn T (C : call T) V np (part : T -> nat -> V) join M n s,
  platOk pl -> tuningOk pl tn -> sortCall pl tn C -> decomposes np part join C -> treach np part join C M n s ->
  ~ tpanicked s /\ ~ tornRace np s /\
  Z.of_nat n <= (2 * Z.of_nat np + 1) * (100 * cLen C * cLen C + 6 * cLen C + 20) + Z.of_nat np /\
  (treturned s tt \/ exists s', tstep np part join (cProcs C) s s') /\
  (forall s', tstep np part join (cProcs C) s s' -> forall x q, ~ cCells C x -> tmem s' x q = tmem s x q) /\
  (forall x f, hasRead np s x f -> exists y, cCells C y /\ forall q, (q < np)%nat -> f q = part (cInit C y) q) /\
  (treturned s tt ->
     (exists w, cGoal C w /\ (forall x, cCells C x -> exists y, cCells C y /\ w x = cInit C y) /\
        forall x q, cCells C x -> (q < np)%nat -> tmem s x q = part (w x) q) /\
     (forall j s', trun np part join (cProcs C) M (cCells C) j s s' ->
        treturned s' tt /\ forall x q, cCells C x -> (q < np)%nat -> tmem s' x q = tmem s x q)).
Proof. intros pl tn T C V np part join M n s Hpl Htn HC Hj. exact (parts_call pl tn np part join C M Hpl Htn HC Hj n s). Qed.
Print Assumptions C42_parts.

(** Byte by byte, elements of any type, in either byte order. *)
Theorem C42_bytes : forall pl be tn j W0 M n s, platOk pl -> isBytes W0 -> tuningOk pl tn ->
  typedSlice pl (jety j) (viewAs pl be j W0) (jslice j) -> sortable (jety j) (jopt j) (contents (viewAs pl be j W0) (jslice j)) ->
  breach pl be tn j W0 M n s ->
  ~ tpanicked s /\ ~ tornRace (Z.to_nat (esize pl (jety j))) s /\
  (treturned s tt \/
     exists s', tstep (Z.to_nat (esize pl (jety j))) (bpart pl be j) (bjoin pl be j W0) (procs pl tn (jety j)) s s') /\
  (treturned s tt -> forall W,
     (forall x o, 0 <= x < jlen j -> 0 <= o < esize pl (jety j) -> W (jbase j + x * esize pl (jety j) + o) = tmem s x (Z.to_nat o)) ->
     (forall a, heap pl be j W0 a -> W a = W0 a) ->
     Permutation (contents (viewAs pl be j W) (jslice j)) (contents (viewAs pl be j W0) (jslice j)) /\
     inOrder (jety j) (jopt j) (contents (viewAs pl be j W) (jslice j))).
Proof. intros pl be tn j W0 M n s Hpl HW. exact (parts_bytes pl be tn j W0 Hpl HW M n s). Qed.
Print Assumptions C42_bytes.

(** An int64 on a 32-bit platform is two words.  The caller has written one word of an element (so
    that the cell holds a number which is not in the collection), a goroutine one word of another. *)
Example C42_example : (exists n s, treach 2 half unhalf exCall32 3 n s /\
    (exists p, nth_error (claims s) 0 = Some (Some (34, true), p) /\ p 0%nat = None /\ p 1%nat <> None) /\
    (exists p, nth_error (claims s) 2 = Some (Some (18, true), p) /\ p 0%nat <> None /\ p 1%nat = None) /\
    unhalf (tmem s 34) = 2 ^ 64 - 4294967293) /\
  ~ In (2 ^ 64 - 4294967293) (contents (cInit exCall32) exSlice).
Proof. exact ex_torn. Qed.

Example C42_example_ok : sortCall plat32 tiny exCall32 /\ decomposes 2 half unhalf exCall32.
Proof. exact (conj exCall32_ok half_ok). Qed.

Example C42_example_bytes : exists n s, breach plat64 false tiny (exJobs 1) exBytes 3 n s /\ treturned s tt.
Proof. exact ex_bytewise. Qed.

(** ** C43: never more goroutines than long ranges

    Whatever values the plain reads of the goroutine counter return (C14 needs up to date ones), and
    whatever MaxGor is: every goroutine at work has more than MaxLenRec elements to itself
    (MaxLenRecFC for Sort and for strings). *)

Theorem C43_spread : forall pl tn T (C : call T) M k s idx, platOk pl -> tuningOk pl tn -> sortCall pl tn C ->
  reach C M k s -> NoDup idx -> (forall i, In i idx -> busy s i) ->
  Z.of_nat (length idx) <= Z.max 1 (cLen C / ((if cFC C then maxLenRecFC tn else maxLenRec tn) + 1)).
Proof. exact (fun pl tn T C M k s idx a b c r => g_spread pl tn a b C c M k s r idx). Qed.
Print Assumptions C43_spread.

(** With NaNs under NaNignore, too. *)
Theorem C43_spread_any : forall pl tn opt e s m0, platOk pl -> tuningOk pl tn -> typedSlice pl e m0 s ->
  let C := typedCall pl tn opt e s m0 in
  forall M k st idx, reach C M k st -> NoDup idx ->
  (forall i, In i idx -> exists x w, nth_error (accesses st) i = Some (Some (x, w))) ->
  Z.of_nat (length idx) <= Z.max 1 (len s / ((if cFC C then maxLenRecFC tn else maxLenRec tn) + 1)).
Proof. exact any_spread. Qed.
Print Assumptions C43_spread_any.

(** The bound is attained: four goroutines for 4 * (MaxLenRec + 1) elements. *)
Example C43_example : sortCall plat64 tiny spreadCall /\
  exists k s idx, reach spreadCall 9 k s /\ NoDup idx /\ (forall i, In i idx -> busy s i) /\
    Z.of_nat (length idx) = cLen spreadCall / (maxLenRec tiny + 1) /\ length idx = 4%nat.
Proof. exact (conj ex_spread_call spread_attained). Qed.

(** ** C44: a sorted collection is left alone

    No element of a collection that is already in order is ever written, let alone moved
    (the correctness theorems say only where elements end up); and it takes time proportional to n log n, not n^2 (C09). *)

Theorem C44_untouched : forall pl tn T (C : call T) M k s, platOk pl -> nearMean pl -> tuningOk pl tn ->
  sortedCall pl tn C -> reach C M k s ->
  (forall x, ~ In (Some (x, true)) (accesses s)) /\ forall i, cCells C i -> mem (sh s) i = cInit C i.
Proof. exact sorted_untouched. Qed.
Print Assumptions C44_untouched.

Theorem C44_steps : forall pl tn T (C : call T) M k s, platOk pl -> nearMean pl -> tuningOk pl tn ->
  sortedCall pl tn C -> (if cFC C then maxLenRecFC tn else maxLenRec tn) < 2 ^ 32 -> reach C M k s ->
  Z.of_nat k <= 500 * cLen C * (Z.log2 (cLen C) + 1) + 6 * cLen C + 20.
Proof. exact sorted_steps. Qed.
Print Assumptions C44_steps.

(** So calls may share elements, as long as these are in order for each of them. *)
Theorem C44_together : forall pl tn T (C : nat -> call T) (ro : nat -> Prop) M w mg S, platOk pl -> nearMean pl -> tuningOk pl tn ->
  (forall i, sortCall pl tn (C i)) -> (forall i, ro i -> sortedCall pl tn (C i)) -> crowd C ro M w mg S ->
  (forall i s, S i = Busy s ->
     (exists k, reach (C i) M k (share s w mg)) /\ ~ panicked s /\ ~ race s /\
     (returned s tt -> cGoal (C i) w) /\
     (returned s tt \/ exists s', pstep (cProcs (C i)) (share s w mg) s')) /\
  (forall i j s s' x b b', S i = Busy s -> S j = Busy s' -> i <> j ->
     In (Some (x, b)) (accesses s) -> In (Some (x, b')) (accesses s') -> b = false /\ b' = false).
Proof. intros pl tn T C ro M w mg S Hpl Hn Htn HC Hro. exact (crowd_calls pl tn Hpl Hn Htn C ro HC Hro M w mg S). Qed.
Print Assumptions C44_together.

(** What a call has sorted is such a collection. *)
Theorem C44_twice_typed : forall pl tn opt e s m0 M k st, platOk pl -> tuningOk pl tn ->
  typedSlice pl e m0 s -> sortable e opt (contents m0 s) ->
  reach (typedCall pl tn opt e s m0) M k st -> returned st tt ->
  sortedCall pl tn (typedCall pl tn opt e s (mem (sh st))).
Proof. exact again_typed. Qed.
Print Assumptions C44_twice_typed.

Theorem C44_twice_lsw : forall pl tn T lt cap n (m0 : Z -> T) M k st, platOk pl -> tuningOk pl tn ->
  weakOrder lt -> 0 <= n <= cap -> 11 * n + 18 < 10 * intSize pl ->
  reach (lswCall pl tn lt cap n m0) M k st -> returned st tt ->
  sortedCall pl tn (lswCall pl tn lt cap n (mem (sh st))).
Proof. exact again_lsw. Qed.
Print Assumptions C44_twice_lsw.

(** Numbers, pairs with equal keys (both with several goroutines), floats with NaNs. *)
Example C44_example_near : nearMean plat64.
Proof. exact (bit_near 8). Qed.

Example C44_example : sortedCall plat64 tiny spreadCall /\
  exists k s, reach spreadCall 9 k s /\ returned s tt /\ (2 <= length (thr s))%nat.
Proof. exact (conj ex_spread_sorted ex_spread_run). Qed.

Example C44_example_lsw : sortedCall plat64 tiny stillCall /\
  exists k s, reach stillCall 9 k s /\ returned s tt /\ (2 <= length (thr s))%nat.
Proof. exact (conj ex_still_sorted ex_still_run). Qed.

Example C44_example_nan : exists m, sortedCall plat64 tiny (typedCall plat64 tiny 1 TF8 fSlice64 m) /\
  map nan64b (contents m fSlice64) = repeat false 51 ++ repeat true 9.
Proof. exact ex_nan_sorted. Qed.

(** Two calls, both with goroutines, on slices that share 70 elements. *)
Example C44_example_crowd : (forall i, sortedCall plat64 tiny (crowdCalls i)) /\
  exists w S s0 s1, crowd crowdCalls (fun _ => True) 3 w 3 S /\
    S 0%nat = Busy s0 /\ S 1%nat = Busy s1 /\
    ~ returned s0 tt /\ (1 <= length (thr s0))%nat /\ ~ returned s1 tt /\ (1 <= length (thr s1))%nat.
Proof. exact (conj ex_crowd_sorted ex_crowd). Qed.

(** The hypothesis on means is needed: with one that meets the rest of the contract but rounds odd
    sums to the smaller argument, a sorted slice is written to. *)
Example C44_example_mean : exists pl T (C : call T) k s x, platOk pl /\ tuningOk pl tiny /\ sortedCall pl tiny C /\
  reach C 9 k s /\ In (Some (x, true)) (accesses s).
Proof. exact low_mean_writes. Qed.

(** ** C45: quadratic time *)

(** For every length beyond MaxLenRec + 48, some arrangement of elements takes more than (n - MaxLenRec - 48)^2 / 8
    steps with MaxGor <= 1, in every run.  With C09, the worst case is quadratic; no c * n * log n is a bound. *)
Theorem C45_quadratic : forall pl tn opt e s, platOk pl -> tuningOk pl tn -> goSlice pl s ->
  maxLenRec tn + 48 <= len s <= match e with TI4 | TU4 | TF4 => 2 ^ 30 | _ => 2 ^ 62 end ->
  exists m0, sortCall pl tn (typedCall pl tn opt e s m0) /\
    forall k st, reach (typedCall pl tn opt e s m0) 1 k st -> returned st tt ->
      (len s - maxLenRec tn - 48) * (len s - maxLenRec tn - 48) < 8 * (Z.of_nat k + 1).
Proof. exact quadratic. Qed.
Print Assumptions C45_quadratic.

(** The elements may be taken from any sequence of that many different ones. *)
Theorem C45_values : forall pl tn opt e s (vals : Z -> elem e), platOk pl -> tuningOk pl tn -> goSlice pl s ->
  (forall i, 0 <= i < len s -> wellTyped pl e (vals i) /\ ~ nan e (vals i)) ->
  (forall i j, 0 <= i -> i < j -> j < len s -> lt e (vals i) (vals j)) ->
  maxLenRec tn + 48 <= len s ->
  exists m0, (forall i, cellsOf s i -> exists j, 0 <= j < len s /\ m0 i = vals j) /\
    sortCall pl tn (typedCall pl tn opt e s m0) /\
    forall k st, reach (typedCall pl tn opt e s m0) 1 k st -> returned st tt ->
      (len s - maxLenRec tn - 48) * (len s - maxLenRec tn - 48) < 8 * (Z.of_nat k + 1).
Proof. exact quadratic_values. Qed.
Print Assumptions C45_values.

(** Sort: for all different elements [m0] some order of them, by a key, takes more than (n - MaxLenRecFC - 48)^2 / 10 steps. *)
Theorem C45_lesswap : forall pl tn cap n (m0 : Z -> Z), platOk pl -> tuningOk pl tn -> n <= cap -> 11 * n + 18 < 10 * intSize pl ->
  maxLenRecFC tn + 48 <= n -> NoDup (contents m0 (Slice 0 n)) ->
  exists key : Z -> Z, sortCall pl tn (lswCall pl tn (fun x y => key x <? key y) cap n m0) /\
    forall k st, reach (lswCall pl tn (fun x y => key x <? key y) cap n m0) 1 k st -> returned st tt ->
      (n - maxLenRecFC tn - 48) * (n - maxLenRecFC tn - 48) < 10 * (Z.of_nat k + 1).
Proof. exact quadratic_lsw. Qed.
Print Assumptions C45_lesswap.

(** A million strings, parameters as shipped: more than 10^11 steps. *)
Example C45_example : exists m0, sortCall plat64 shipped (typedCall plat64 shipped 0 TS (Slice 5 (10 ^ 6)) m0) /\
  (exists k st, reach (typedCall plat64 shipped 0 TS (Slice 5 (10 ^ 6)) m0) 1 k st /\ returned st tt) /\
  forall k st, reach (typedCall plat64 shipped 0 TS (Slice 5 (10 ^ 6)) m0) 1 k st -> returned st tt -> 10 ^ 11 < Z.of_nat k.
Proof. exact ex_slow. Qed.

(** A million elements under Sort. *)
Example C45_example_lesswap : exists key : Z -> Z,
  sortCall plat64 shipped (lswCall plat64 shipped (fun x y => key x <? key y) (10 ^ 6) (10 ^ 6) (fun i => i)) /\
  (exists k st, reach (lswCall plat64 shipped (fun x y => key x <? key y) (10 ^ 6) (10 ^ 6) (fun i => i)) 1 k st /\ returned st tt) /\
  forall k st, reach (lswCall plat64 shipped (fun x y => key x <? key y) (10 ^ 6) (10 ^ 6) (fun i => i)) 1 k st -> returned st tt ->
    9 * 10 ^ 10 < Z.of_nat k.
Proof. exact ex_slow_lsw. Qed.

(** ** C46: large collections are shared with goroutines, small ones are not *)

Theorem C46_shared_slice : forall pl tn e opt s m0 xs ns M k st, platOk pl -> tuningOk pl tn ->
  typedSlice pl e m0 s -> sortable e opt (contents m0 s) ->
  Permutation (contents m0 s) (xs ++ ns) -> Forall (fun x => ~ nan e x) xs ->
  recLimit tn (typedCall pl tn opt e s m0) <= Z.of_nat (length xs) ->
  kept (typedCall pl tn opt e s m0) 2 M k st -> returned st tt ->
  (1 <= length (thr st))%nat /\ chans (sh st) = 1.
Proof. exact (fun pl tn e opt s m0 xs ns M k st a b => shared_typed pl tn e a b opt s m0 xs ns M k st). Qed.
Print Assumptions C46_shared_slice.

Theorem C46_shared_lesswap : forall pl tn T (lt lq : T -> T -> bool) cap n m0 M k st, platOk pl -> tuningOk pl tn ->
  consistent lt lq -> 0 <= n <= cap -> 11 * n + 18 < 10 * intSize pl ->
  recLimit tn (lswCallBy pl tn lt lq cap n m0) <= n ->
  kept (lswCallBy pl tn lt lq cap n m0) 2 M k st -> returned st tt ->
  (1 <= length (thr st))%nat /\ chans (sh st) = 1.
Proof. exact (fun pl tn T lt lq cap n m0 M k st => shared_lsw pl tn lt lq cap n m0 M k st). Qed.
Print Assumptions C46_shared_lesswap.

Theorem C46_alone : forall pl tn e opt s m0 xs ns M k st, platOk pl -> tuningOk pl tn ->
  typedSlice pl e m0 s -> sortable e opt (contents m0 s) ->
  Permutation (contents m0 s) (xs ++ ns) -> Forall (nan e) ns ->
  Z.of_nat (length xs) < recLimit tn (typedCall pl tn opt e s m0) ->
  reach (typedCall pl tn opt e s m0) M k st -> thr st = [] /\ chans (sh st) = 0.
Proof. exact (fun pl tn e opt s m0 xs ns M k st a b => alone_typed pl tn e a b opt s m0 xs ns M k st). Qed.
Print Assumptions C46_alone.

(** 60 numbers of which 9 are NaN: enough to be shared with one tuning (46), not with another
    (56); in the first case the call returns while MaxGor is at least 2. *)
Example C46_example : typedSlice plat64 TF8 fMem64 fSlice64 /\ Permutation (contents fMem64 fSlice64) (exNums ++ exNans) /\
  Forall (fun x => ~ nan TF8 x) exNums /\ Forall (nan TF8) exNans /\ Z.of_nat (length exNums) = 51 /\
  recLimit tiny (fCall64 1) = 46 /\ recLimit wide (fCall64 1) = 56 /\ cLen (fCall64 1) = 60 /\ tuningOk plat64 wide /\
  exists k st, kept (fCall64 1) 2 3 k st /\ returned st tt.
Proof. exact ex_shared. Qed.

(** ** C47: elements that compare equal: in how many ways they can end up *)

(** [outcome C w]: some run of the call, with some MaxGor, returns and leaves memory [w]. However
    MaxGor changes and the goroutines are scheduled, the results are few. *)
Theorem C47_results : forall pl tn T (C : call T) ws, platOk pl -> tuningOk pl tn -> sortCall pl tn C ->
  ForallOrdPairs (apart C) ws -> (forall w, In w ws -> outcome C w) ->
  Z.of_nat (length ws) <= Z.max 1 (cLen C - (recLimit tn C - 2)).
Proof. exact (fun pl tn T C ws a b c => results_count pl tn a b C c ws). Qed.
Print Assumptions C47_results.

Theorem C47_reproducible : forall pl tn T (C : call T) M k s M' k' s', platOk pl -> tuningOk pl tn -> sortCall pl tn C ->
  (M <= 1 /\ M' <= 1) \/ cLen C < recLimit tn C ->
  reach C M k s -> returned s tt -> reach C M' k' s' -> returned s' tt ->
  forall i, cCells C i -> mem (sh s') i = mem (sh s) i.
Proof. exact reproducible. Qed.
Print Assumptions C47_reproducible.

(** That there is only one result is false, even if MaxGor stays 2, nobody else touches memory and
    every read of the goroutine counter is up to date. *)
Theorem C47_schedule_refuted : exists pl tn T (C : call T) k s k' s' i, platOk pl /\ tuningOk pl tn /\ sortCall pl tn C /\
  undisturbed C 2 k s /\ returned s tt /\ undisturbed C 2 k' s' /\ returned s' tt /\
  cCells C i /\ mem (sh s) i <> mem (sh s') i.
Proof. exact schedule_matters. Qed.
Print Assumptions C47_schedule_refuted.

(** Sort on 120 records with 7 keys, and SortLen on 120 strings with 7 lengths: two results each, of
    at most 78 for the first; the second also returns with MaxGor 1. *)
Example C47_example : sortCall plat64 tiny recCall /\ (exists w w', outcome recCall w /\ outcome recCall w' /\ apart recCall w w') /\
  Z.max 1 (cLen recCall - (recLimit tiny recCall - 2)) = 78 /\
  sortCall plat64 tiny lenCall /\ (exists w w', outcome lenCall w /\ outcome lenCall w' /\ apart lenCall w w') /\
  exists k s, reach lenCall 1 k s /\ returned s tt.
Proof. exact ex_results. Qed.

(** ** C48: Sort with any Lesswap whatever, or a collection that others change meanwhile *)

(** In [disturbed C M k s] the elements may change arbitrarily between any two steps. *)
Theorem C48_any_lesswap : forall pl tn T (lt : T -> T -> bool) cap n m0 M k st, platOk pl -> tuningOk pl tn ->
  0 <= n <= cap -> 11 * n + 18 < 10 * intSize pl -> let C := lswCall pl tn lt cap n m0 in disturbed C M k st ->
  ~ panicked st /\
  (forall x w, In (Some (x, w)) (accesses st) -> 0 <= x < n) /\
  Z.of_nat k <= 100 * n * n + 12 /\
  (returned st tt \/ exists st', pstep (cProcs C) st st') /\
  (returned st tt -> forall c, In c (thr st) -> exiting c).
Proof. exact any_lesswap. Qed.
Print Assumptions C48_any_lesswap.

Theorem C48_resources : forall pl tn T (lt : T -> T -> bool) cap n m0 M k st, platOk pl -> tuningOk pl tn ->
  0 <= n <= cap -> 11 * n + 18 < 10 * intSize pl -> disturbed (lswCall pl tn lt cap n m0) M k st ->
  (forall c, In c (thr st) -> Z.of_nat (depth c) <= Z.log2 n + 2) /\
  Z.of_nat (depth (main st)) <= Z.log2 n + 2 /\ chans (sh st) <= 1 /\
  (n < 2 * (maxLenRecFC tn + 1) -> thr st = [] /\ chans (sh st) = 0) /\
  forall idx, NoDup idx -> (forall i, In i idx -> busy st i) ->
    Z.of_nat (length idx) <= 1 \/ (maxLenRecFC tn + 1) * Z.of_nat (length idx) <= n.
Proof. exact any_lesswap_resources. Qed.
Print Assumptions C48_resources.

(** [disturbed] covers a Lesswap that answers anything: whoever is about to call Lesswap, on elements
    that are mere bits, can go on with either answer. *)
Theorem C48_any_answer : forall body M cap i k r q (b : bool) (K : bool -> cmd lproc bool unit) ts (s : shared bool),
  0 <= i < cap -> 0 <= k < cap -> 0 <= r < cap -> 0 <= q < cap -> 0 <= maxg s <= M ->
  exists j c' s', exec body M (fun _ => False) j (St (Bind (lsw (fun x _ => x) cap i k r q) K) ts s) (St c' ts s') /\
    view c' = view (K b) /\ ngor s' = ngor s /\ maxg s' = maxg s /\ chans s' = chans s.
Proof. exact any_answer_main. Qed.
Print Assumptions C48_any_answer.

Theorem C48_any_answer_goroutine : forall R body M cap i k r q (b : bool) (K : bool -> cmd lproc bool unit) (m : cmd lproc bool R) l1 l2 (s : shared bool),
  0 <= i < cap -> 0 <= k < cap -> 0 <= r < cap -> 0 <= q < cap -> 0 <= maxg s <= M ->
  exists j c' s', exec body M (fun _ => False) j (St m (l1 ++ Bind (lsw (fun x _ => x) cap i k r q) K :: l2) s) (St m (l1 ++ c' :: l2) s') /\
    view c' = view (K b) /\ ngor s' = ngor s /\ maxg s' = maxg s /\ chans s' = chans s.
Proof. exact (@any_answer_thr). Qed.
Print Assumptions C48_any_answer_goroutine.

(** 60 elements: a Lesswap that always answers yes; one with a proper order, but all elements replaced
    while the call is under way (it returns, and they are neither sorted nor the ones it was called
    with); and "<=", for which two goroutines race. *)
Example C48_example : platOk plat64 /\ tuningOk plat64 tiny /\
  (exists k st, disturbed yesCall 3 k st /\ returned st tt /\ (1 <= length (thr st))%nat) /\
  (exists k st, disturbed midCall 3 k st /\ returned st tt /\ (1 <= length (thr st))%nat /\
    let l := contents (mem (sh st)) (Slice 0 60) in
    ~ StronglySorted (fun x y => Z.ltb y x = false) l /\ ~ Permutation l (contents (cInit midCall) (Slice 0 60))) /\
  exists k st, disturbed leCall2 2 k st /\ race st.
Proof. exact (conj plat64_ok (conj tiny_ok (conj yes_run (conj mid_run race_run)))). Qed.

(** ** C49: SortSlice and SortLen while other goroutines change the elements *)

Theorem C49_any_elements : forall pl tn opt e s m0 M k st, platOk pl -> tuningOk pl tn -> goSlice pl s ->
  let C := typedCall pl tn opt e s m0 in disturbed C M k st ->
  ~ panicked st /\
  (forall x w, In (Some (x, w)) (accesses st) -> cellsOf s x) /\
  (returned st tt \/ exists st', pstep (cProcs C) st st') /\
  (returned st tt -> forall x w, ~ In (Some (x, w)) (accesses st)).
Proof. exact any_elements. Qed.
Print Assumptions C49_any_elements.

Theorem C49_resources : forall pl tn opt e s m0 M k st, platOk pl -> tuningOk pl tn -> goSlice pl s ->
  let C := typedCall pl tn opt e s m0 in disturbed C M k st ->
  (forall c, In c (thr st) -> Z.of_nat (depth c) <= Z.log2 (len s) + 2) /\
  Z.of_nat (depth (main st)) <= Z.log2 (len s) + 2 /\ chans (sh st) <= 1 /\
  (len s < recLimit tn C -> thr st = [] /\ chans (sh st) = 0) /\
  forall idx, NoDup idx -> (forall i, In i idx -> exists x w, nth_error (accesses st) i = Some (Some (x, w))) ->
    Z.of_nat (length idx) <= 1 \/ recLimit tn C * Z.of_nat (length idx) <= 2 * len s.
Proof. exact any_elements_resources. Qed.
Print Assumptions C49_resources.

(** But no bound on the time: above MaxLenIns (MaxLenInsFC) elements, whoever changes them can keep
    the call running for any number of steps, with proper values of the element type. *)
Theorem C49_no_time_bound : forall pl tn opt e s m0 M, platOk pl -> tuningOk pl tn -> typedSlice pl e m0 s -> 0 <= M ->
  (if cFC (typedCall pl tn opt e s m0) then maxLenInsFC tn else maxLenIns tn) < len s ->
  forall n, exists st, disturbed (typedCall pl tn opt e s m0) M n st /\ typedSlice pl e (mem (sh st)) s.
Proof. exact may_run_on. Qed.
Print Assumptions C49_no_time_bound.

(** 60 numbers, all replaced while the call is under way with a second goroutine: it returns, and they
    are neither in order nor the ones it was called with. *)
Example C49_example : platOk plat64 /\ tuningOk plat64 tiny /\ typedSlice plat64 TU8 (cInit swapCall) (Slice 0 60) /\
  (exists k st, disturbed swapCall 3 k st /\ returned st tt /\ (1 <= length (thr st))%nat /\
    let l := contents (mem (sh st)) (Slice 0 60) in
    ~ StronglySorted (le TU8) l /\ ~ Permutation l (contents (cInit swapCall) (Slice 0 60))) /\
  forall n, exists st, disturbed swapCall 3 n st /\ typedSlice plat64 TU8 (mem (sh st)) (Slice 0 60).
Proof.
  exact (conj plat64_ok (conj tiny_ok (conj (proj2 swap_slice) (conj swap_run
    (may_run_on plat64 tiny 1 TU8 (Slice 0 60) (cInit swapCall) 3 plat64_ok tiny_ok (proj2 swap_slice) ltac:(discriminate) ltac:(reflexivity)))))).
Qed.

(** ** C50: a Lesswap that panics in the caller's goroutine, recovered by the caller *)

Theorem C50_left_behind : forall pl tn, platOk pl -> tuningOk pl tn -> forall T (lt : T -> T -> bool) cap n m0,
  irreflexive lt -> 0 <= n <= cap -> 11 * n + 18 < 10 * intSize pl ->
  let C := lswCall pl tn lt cap n m0 in forall M k s, abandoned C M k s ->
  ~ panicked s /\ ~ race s /\ (forall x w, In (Some (x, w)) (accesses s) -> 0 <= x < n) /\
  Z.of_nat k <= 100 * n * n + 6 * n + 20 /\
  (M <= 1 \/ n < 2 * (maxLenRecFC tn + 1) -> thr s = []) /\
  (settled s <-> forall s', ~ pstep (cProcs C) s s').
Proof. exact (fun pl tn Hpl Htn T => @lesswap_panic pl tn Hpl Htn T). Qed.
Print Assumptions C50_left_behind.

Theorem C50_elements : forall pl tn, platOk pl -> tuningOk pl tn -> forall T (lt : T -> T -> bool) cap n m0,
  irreflexive lt -> 0 <= n <= cap -> 11 * n + 18 < 10 * intSize pl ->
  forall M k s, abandoned (lswCall pl tn lt cap n m0) M k s -> (forall x, ~ In (Some (x, true)) (accesses s)) ->
  Permutation (contents (mem (sh s)) (Slice 0 n)) (contents m0 (Slice 0 n)).
Proof. exact (fun pl tn Hpl Htn T => @lesswap_panic_keeps pl tn Hpl Htn T). Qed.
Print Assumptions C50_elements.

Theorem C50_settles : forall pl tn, platOk pl -> tuningOk pl tn -> forall T (lt : T -> T -> bool) cap n m0,
  irreflexive lt -> 0 <= n <= cap -> 11 * n + 18 < 10 * intSize pl ->
  let C := lswCall pl tn lt cap n m0 in forall M k s, abandoned C M k s ->
  exists j s', exec (cProcs C) M (cCells C) j s s' /\ settled s' /\
    Permutation (contents (mem (sh s')) (Slice 0 n)) (contents m0 (Slice 0 n)).
Proof. exact (fun pl tn Hpl Htn T => @lesswap_panic_settles pl tn Hpl Htn T). Qed.
Print Assumptions C50_settles.

(** The caller leaves while it partitions 60 elements together with a helper: the helper goes on
    exchanging elements (so that whoever touches them now races with it), and in the end waits for
    ever for somebody to receive its result. *)
Theorem C50_unattended : exists pl tn T (C : call T), platOk pl /\ tuningOk pl tn /\ sortCall pl tn C /\
  (exists k s, abandoned C 3 k s /\ exists x, In (Some (x, true)) (accesses s)) /\
  exists k s, abandoned C 3 k s /\ settled s /\ exists c v k', In c (thr s) /\ view c = HSend v k'.
Proof. exact (ex_intro _ plat64 (ex_intro _ tiny (ex_intro _ _ (ex_intro _ pCall (conj plat64_ok (conj tiny_ok (conj ex_lsw_call (conj left_writes left_blocked)))))))). Qed.
Print Assumptions C50_unattended.

Example C50_example : platOk plat64 /\ tuningOk plat64 tiny /\ irreflexive pairGt /\
  (exists k s, abandoned pCall 3 k s /\ exists x, In (Some (x, true)) (accesses s)) /\
  exists k s, abandoned pCall 3 k s /\ settled s /\ exists c v k', In c (thr s) /\ view c = HSend v k'.
Proof. exact (conj plat64_ok (conj tiny_ok (conj pair_irreflexive (conj left_writes left_blocked)))). Qed.

(** ** C51: the checkers while other goroutines change the elements *)

Theorem C51_watched : forall pl, platOk pl -> forall tn opt e s, goSlice pl s -> forall m0 mg0 M k L st,
  watched (procs pl tn e) M k L (start (checkProg pl opt e s) m0 mg0) st ->
  ~ panicked st /\ (forall x w, In (Some (x, w)) (accesses st) -> cellsOf s x /\ w = false) /\
  Z.of_nat k <= 6 * len s + 12 /\ thr st = [] /\
  ((exists r, returned st r) \/ exists st', pstep (procs pl tn e) st st').
Proof. exact (fun pl _ => check_watched pl). Qed.
Print Assumptions C51_watched.

Theorem C51_result : forall pl, platOk pl -> forall tn opt e s, goSlice pl s -> forall m0 mg0 M k L st r,
  watched (procs pl tn e) M k L (start (checkProg pl opt e s) m0 mg0) st ->
  (forall s1, In s1 L -> typedSlice pl e (mem (sh s1)) s) -> returned st r ->
  (r = 0 /\ forall i, 0 < i < len s -> fine L opt s i) \/
  (0 < r < len s /\ met L (off s + r) (fun x y => ~ goLe e y x) /\ forall i, r < i < len s -> fine L opt s i).
Proof. exact check_watched_result. Qed.
Print Assumptions C51_result.

Theorem C51_lesswap : forall T pl (lt : T -> T -> bool) cap n,
  - intSize pl < n < intSize pl -> n <= Z.max 0 cap -> forall body m0 mg0 M k L st,
  watched body M k L (start (lswIsSorted (Wd := pword pl) lt cap n) m0 mg0) st ->
  ~ panicked st /\ (forall x w, In (Some (x, w)) (accesses st) -> 0 <= x < n /\ w = false) /\
  Z.of_nat k <= 3 * Z.max 0 n + 3 /\ thr st = [] /\
  ((exists r, returned st r) \/ exists st', pstep body st st') /\
  forall r, returned st r ->
  (r = 0 /\ forall i, 0 < i < n -> met L i (fun x y => lt x y = false)) \/
  (0 < r < n /\ met L r (fun x y => lt x y = true) /\
     forall i, r < i < n -> met L i (fun x y => lt x y = false)).
Proof. exact (@lsw_watched). Qed.
Print Assumptions C51_lesswap.

(** More cannot be said: both report as sorted what never was. *)
Theorem C51_no_snapshot :
  (exists k L st,
    watched (procs plat64 tiny TU8) 1 k L (start (checkProg plat64 1 TU8 (Slice 0 3)) (memOf 0 0 [5; 1; 2]) 1) st /\
    returned st 0 /\ forall s1, In s1 L -> typedSlice plat64 TU8 (mem (sh s1)) (Slice 0 3) /\
      ~ StronglySorted (le TU8) (contents (mem (sh s1)) (Slice 0 3))) /\
  exists k L st,
    watched (@noProcs lproc Z) 1 k L (start (lswIsSorted (Wd := pword plat64) Z.ltb 3 3) (memOf 0 0 [5; 1; 2]) 1) st /\
    returned st 0 /\ forall s1, In s1 L -> ~ forall i, 0 < i < 3 -> (mem (sh s1) i <? mem (sh s1) (i - 1)) = false.
Proof. exact (conj never_sorted never_sorted_lesswap). Qed.
Print Assumptions C51_no_snapshot.

Example C51_example : platOk plat64 /\ (goSlice plat64 (Slice 0 3) /\ - intSize plat64 < 3 < intSize plat64) /\
  exists k L st,
    watched (procs plat64 tiny TU8) 1 k L (start (checkProg plat64 1 TU8 (Slice 0 3)) (memOf 0 0 [5; 1; 2]) 1) st /\
    returned st 0 /\ forall s1, In s1 L -> typedSlice plat64 TU8 (mem (sh s1)) (Slice 0 3) /\
      ~ StronglySorted (le TU8) (contents (mem (sh s1)) (Slice 0 3)).
Proof. exact (conj plat64_ok (conj three_ok never_sorted)). Qed.

(** ** C52: elements accessed in parts, under the Go memory model

    As in C42 an element consists of [np] parts, accessed one by one and in any order; as in C37 a
    read (of a part) returns any value that the memory model lets it see. *)

Theorem C52_parts : forall pl tn T (C : call T) V np (part : T -> nat -> V) join M F0 w,
  platOk pl -> tuningOk pl tn -> sortCall pl tn C -> decomposes np part join C -> (0 < np)%nat -> 0 <= M ->
  pweakly np part join C M F0 w ->
  ~ dataRace (map fst (phist w)) /\
  Z.of_nat (length (phist w)) <= (2 * Z.of_nat np + 1) * (100 * cLen C * cLen C + 6 * cLen C + 20) + Z.of_nat np /\
  view (fst (pmain w)) <> HPanic /\ (forall g, In g (pthr w) -> view (fst g) <> HPanic) /\
  (view (fst (pmain w)) = HRet tt \/ exists w', pwstep np part join (cProcs C) M (cCells C) F0 w w') /\
  (forall x f, pread np C w x f -> exists y, cCells C y /\ forall q, (q < np)%nat -> f q = part (cInit C y) q) /\
  (view (fst (pmain w)) = HRet tt -> exists v, cGoal C v /\
     (forall x, cCells C x -> exists y, cCells C y /\ v x = cInit C y) /\
     forall u, pseen np C F0 w u -> forall x q, cCells C x -> (q < np)%nat -> u x q = part (v x) q).
Proof. exact (fun pl tn T C V np part join M F0 w a b c d e f h => parts_weak pl tn np part join C M F0 a b c d (proj1 h) w e f (proj2 h)). Qed.
Print Assumptions C52_parts.

(** Byte by byte, elements of any type, in either byte order. *)
Theorem C52_bytes : forall pl be tn j W0 M F0 w, platOk pl -> isBytes W0 -> tuningOk pl tn ->
  typedSlice pl (jety j) (viewAs pl be j W0) (jslice j) -> sortable (jety j) (jopt j) (contents (viewAs pl be j W0) (jslice j)) ->
  0 <= M -> bweakly pl be tn j W0 M F0 w ->
  ~ dataRace (map fst (phist w)) /\ view (fst (pmain w)) <> HPanic /\ (forall g, In g (pthr w) -> view (fst g) <> HPanic) /\
  (view (fst (pmain w)) = HRet tt \/ exists w', bweakly pl be tn j W0 M F0 w' /\ length (phist w') = S (length (phist w))) /\
  (view (fst (pmain w)) = HRet tt -> forall W, bseen pl be tn j W0 F0 w W ->
     Permutation (contents (viewAs pl be j W) (jslice j)) (contents (viewAs pl be j W0) (jslice j)) /\
     inOrder (jety j) (jopt j) (contents (viewAs pl be j W) (jslice j))).
Proof. exact parts_weak_bytes. Qed.
Print Assumptions C52_bytes.

(** Whatever the call does when a part is read as it was last written (C42), it can do here. *)
Theorem C52_includes : forall T V np (part : T -> nat -> V) join (C : call T) M n s, (0 < np)%nat ->
  treach np part join C M n s ->
  exists F0 w, pweakly np part join C M F0 w /\ length (phist w) = n /\ pmain w = tmain s /\ pthr w = tthr s /\
    forall x q, cCells C x -> (q < np)%nat -> latest (flat np F0) (phist w) (place np x q) = tmem s x q.
Proof. exact (fun T V => @parts_weak_all T V). Qed.
Print Assumptions C52_includes.

(** That reads see what was last written is due to the synchronization of the code: a program without
    it reads the new first part of an element with the old second part, after the write is over. *)
Theorem C52_weaker : exists w,
  pwexec 2 pairPart pairJoin mixBody 1 (fun x => x = 0) (fun _ _ => 0) mixProg w /\
  view (fst (pmain w)) = HRet (1, 0).
Proof. exact mixed_read. Qed.
Print Assumptions C52_weaker.

Example C52_example : (sortCall plat32 tiny exCall32 /\ decomposes 2 half unhalf exCall32) /\
  exists F0 w, pweakly 2 half unhalf exCall32 3 F0 w /\
    (exists p, claim (pmain w) = (Some (34, true), p) /\ p 0%nat = None /\ p 1%nat <> None) /\
    exists p, nth_error (map claim (pthr w)) 1 = Some (Some (18, true), p) /\ p 0%nat <> None /\ p 1%nat = None.
Proof. exact (conj (conj exCall32_ok half_ok) ex_torn_weak). Qed.

Example C52_example_bytes : exists F0 w,
  bweakly plat64 false tiny (exJobs 1) exBytes 3 F0 w /\ view (fst (pmain w)) = HRet tt /\
  exists W, bseen plat64 false tiny (exJobs 1) exBytes F0 w W.
Proof. exact ex_bytewise_weak. Qed.

(** ** C53: no values out of thin air

    As in C37, but with nothing but the rules of the Go memory model about reads: a read of an element
    may return the value of any write of the whole execution that does not happen after it and that
    is not overwritten before it, also of a write that is only done later, or only because of
    this very read ([guesses]: reads return anything; [explained]: the execution as a whole explains
    them).  [rs] is what the caller reads after the return, with their values. *)

(** Whatever values their reads return, SortSlice and SortLen have no data race; also if the
    elements change all the time and no two comparisons agree. *)
Theorem C53_no_race : forall pl tn opt e s m0 M tr st pre, platOk pl -> tuningOk pl tn -> goSlice pl s ->
  scrambled (typedCall pl tn opt e s m0) M tr st -> callerOnly pre ->
  ~ dataRace (pre ++ tr) /\ forall post, returned st tt -> callerOnly post -> ~ dataRace (pre ++ tr ++ post).
Proof. exact scrambled_norace. Qed.
Print Assumptions C53_no_race.

(** Hence nothing new can happen: all reads return what was last written. *)
Theorem C53_same : forall pl tn opt e s m0 M w rs, platOk pl -> tuningOk pl tn -> goSlice pl s -> 0 <= M ->
  let C := typedCall pl tn opt e s m0 in allowed C M w rs ->
  exists st, traced C M (map fst (whist w)) st /\ main st = wmain w /\ thr st = wthr w /\
    (forall x, cCells C x -> mem (sh st) x = latest (cInit C) (whist w) x) /\
    forall x v, In (x, v) rs -> cCells C x -> v = mem (sh st) x.
Proof. exact thin_typed_same. Qed.
Print Assumptions C53_same.

Theorem C53_runs : forall pl tn opt e s m0 M w rs, platOk pl -> tuningOk pl tn -> typedSlice pl e m0 s ->
  sortable e opt (contents m0 s) -> 0 <= M ->
  let C := typedCall pl tn opt e s m0 in allowed C M w rs ->
  Z.of_nat (length (whist w)) <= 100 * len s * len s + 6 * len s + 20 /\
  view (wmain w) <> HPanic /\ (forall c, In c (wthr w) -> view c <> HPanic) /\
  (view (wmain w) = HRet tt \/ exists w', guess (cProcs C) M w w' /\ allowed C M w' []).
Proof. exact thin_typed_runs. Qed.
Print Assumptions C53_runs.

(** What the caller reads after the return, is sorted. *)
Theorem C53_sorted : forall pl tn opt e s m0 M w v rs, platOk pl -> tuningOk pl tn -> typedSlice pl e m0 s ->
  sortable e opt (contents m0 s) -> 0 <= M ->
  allowed (typedCall pl tn opt e s m0) M w rs -> view (wmain w) = HRet tt ->
  (forall x, off s <= x < off s + len s -> In (x, v x) rs) ->
  Permutation (contents v s) (contents m0 s) /\ inOrder e opt (contents v s).
Proof. exact thin_typed_goal. Qed.
Print Assumptions C53_sorted.

(** It does not run forever, even if a read may be explained by a write arbitrarily much later. *)
Theorem C53_ends : forall pl tn opt e s m0 M run, platOk pl -> tuningOk pl tn -> typedSlice pl e m0 s ->
  sortable e opt (contents m0 s) -> 0 <= M ->
  let C := typedCall pl tn opt e s m0 in
  ~ endless (cProcs C) M (cCells C) (cInit C) (cProg C) run.
Proof. exact thin_typed_ends. Qed.
Print Assumptions C53_ends.

(** Floats with NaNs under NaNignore: no panic, no deadlock, a rearrangement. *)
Theorem C53_nans : forall pl tn opt e s m0 M w rs, platOk pl -> tuningOk pl tn -> typedSlice pl e m0 s -> 0 <= M ->
  let C := typedCall pl tn opt e s m0 in allowed C M w rs ->
  view (wmain w) <> HPanic /\ (forall c, In c (wthr w) -> view c <> HPanic) /\
  (view (wmain w) = HRet tt \/ exists w', guess (cProcs C) M w w' /\ allowed C M w' []) /\
  (view (wmain w) = HRet tt -> forall v, (forall x, cellsOf s x -> In (x, v x) rs) -> Permutation (contents v s) (contents m0 s)).
Proof. exact thin_any. Qed.
Print Assumptions C53_nans.

(** Sort(n, lsw), for any irreflexive comparison: no data race either, in the executions that explain
    their reads.  Here the mean of two indices has to be rounded to a neighbour. *)
Theorem C53_sort_no_race : forall pl tn T (lt lq : T -> T -> bool) cap n m0 M w rs pre, platOk pl -> tuningOk pl tn -> nearMean pl ->
  (forall x, lt x x = false) -> 0 <= n <= cap -> 11 * n + 18 < 10 * intSize pl -> 0 <= M ->
  allowed (lswCallBy pl tn lt lq cap n m0) M w rs -> callerOnly pre ->
  ~ dataRace (pre ++ map fst (whist w)) /\
  forall post, view (wmain w) = HRet tt -> callerOnly post -> ~ dataRace (pre ++ map fst (whist w) ++ post).
Proof. exact thin_lsw_norace. Qed.
Print Assumptions C53_sort_no_race.

Theorem C53_sort_same : forall pl tn T (lt lq : T -> T -> bool) cap n m0 M w rs, platOk pl -> tuningOk pl tn -> nearMean pl ->
  (forall x, lt x x = false) -> 0 <= n <= cap -> 11 * n + 18 < 10 * intSize pl -> 0 <= M ->
  let C := lswCallBy pl tn lt lq cap n m0 in allowed C M w rs ->
  exists st, traced C M (map fst (whist w)) st /\ main st = wmain w /\ thr st = wthr w /\
    (forall x, cCells C x -> mem (sh st) x = latest (cInit C) (whist w) x) /\
    forall x v, In (x, v) rs -> cCells C x -> v = mem (sh st) x.
Proof. exact thin_lsw_same. Qed.
Print Assumptions C53_sort_same.

(** Not so whatever the reads return, unlike SortSlice and SortLen: Sort may compare an element with itself, and
    exchanges it if the two reads of it disagree. *)
Theorem C53_sort_any_reads_refuted : exists pl tn T (C : call T) M tr s, platOk pl /\ tuningOk pl tn /\ nearMean pl /\
  sortCall pl tn C /\ scrambled C M tr s /\ dataRace tr.
Proof.
  destruct scrambled_races as (tr & s & A & B). exists plat64, tiny, _, pCall, 3, tr, s.
  exact (conj plat64_ok (conj tiny_ok (conj (bit_near 8) (conj ex_lsw_call (conj A B))))).
Qed.
Print Assumptions C53_sort_any_reads_refuted.

(** All calls: the bound on steps, no panic, no deadlock, what the caller reads afterwards, no endless run. *)
Theorem C53_calls_run : forall pl tn T (C : call T) M w rs, platOk pl -> tuningOk pl tn -> nearMean pl -> sortCall pl tn C -> 0 <= M ->
  allowed C M w rs ->
  Z.of_nat (length (whist w)) <= 100 * cLen C * cLen C + 6 * cLen C + 20 /\
  view (wmain w) <> HPanic /\ (forall c, In c (wthr w) -> view c <> HPanic) /\
  (view (wmain w) = HRet tt \/ exists w', guess (cProcs C) M w w' /\ allowed C M w' []).
Proof. exact thin_call_runs. Qed.
Print Assumptions C53_calls_run.

Theorem C53_calls_sort : forall pl tn T (C : call T) M w v rs, platOk pl -> tuningOk pl tn -> nearMean pl -> sortCall pl tn C -> 0 <= M ->
  allowed C M w rs -> view (wmain w) = HRet tt -> (forall x, cCells C x -> In (x, v x) rs) -> cGoal C v.
Proof. exact thin_call_goal. Qed.
Print Assumptions C53_calls_sort.

Theorem C53_calls_end : forall pl tn T (C : call T) M run, platOk pl -> tuningOk pl tn -> nearMean pl -> sortCall pl tn C -> 0 <= M ->
  ~ endless (cProcs C) M (cCells C) (cInit C) (cProg C) run.
Proof. exact thin_call_ends. Qed.
Print Assumptions C53_calls_end.

(** These executions include the sequentially consistent ones, and their caller may read everything. *)
Theorem C53_includes : forall T (C : call T) M tr s xs, traced C M tr s -> returned s tt ->
  exists w, allowed C M w (map (fun x => (x, latest (cInit C) (whist w) x)) xs) /\ map fst (whist w) = tr /\
    wmain w = main s /\ wthr w = thr s /\ forall x, cCells C x -> latest (cInit C) (whist w) x = mem (sh s) x.
Proof. exact @thin_all. Qed.
Print Assumptions C53_includes.

(** That this is weaker than C37: a program with a race returns 42 out of thin air, though both of its
    cells are 0 and it only copies them. With reads that see only earlier writes it returns 0. *)
Theorem C53_weaker :
  (exists w, guesses airBody 1 airProg w /\ explained (fun x => x = 0 \/ x = 1) (fun _ => 0) (whist w) /\ view (wmain w) = HRet 42) /\
  forall w v, wexec airBody 1 (fun x => x = 0 \/ x = 1) (fun _ => 0) airProg w -> view (wmain w) = HRet v -> v = 0.
Proof. exact (conj air_explained air_weak_zero). Qed.
Print Assumptions C53_weaker.

Example C53_example : exists w rs, allowed exCall 3 w rs /\ view (wmain w) = HRet tt /\
  (exists p, In (EvGo p 1) (map fst (whist w))) /\ forall x, cCells exCall x -> In (x, latest exMem (whist w) x) rs.
Proof. exact ex_allowed. Qed.

Example C53_example_no_race : exists tr st, scrambled exCall 3 tr st /\ returned st tt /\ exists p, In (EvGo p 1) tr.
Proof. exact ex_scrambled. Qed.

Example C53_example_sort : sortCall plat64 tiny pCall /\ exists w rs, allowed pCall 3 w rs /\ view (wmain w) = HRet tt /\
  (1 <= length (wthr w))%nat /\ forall x, cCells pCall x -> In (x, latest pMem (whist w) x) rs.
Proof. exact (conj ex_lsw_call ex_lsw_allowed). Qed.

Example C53_example_nans : typedSlice plat64 TF4 mixMem f32Slice /\
  exists w, allowed mixCall 3 w [] /\ view (wmain w) = HRet tt /\ (2 <= length (wthr w))%nat.
Proof. exact (conj ex_mix_typed ex_mix_allowed). Qed.

(** ** C54: the garbage collector *)

(** Marking may begin at any moment of the call and proceed as it likes while the call runs.  If stores of elements have
    the write barrier (strings, slices, what a Lesswap exchanges), then when it has ended all elements the call
    was given are marked, and so is whatever will ever be in their places. *)
Theorem C54_seen : forall pl tn T (C : call T) M s L X N, platOk pl -> tuningOk pl tn -> sortCall pl tn C ->
  (forall v w : T, v = w \/ v <> w) -> marking true true C M s L X N -> ended C s X N ->
  (forall x, cCells C x -> In (cInit C x) L) /\
  forall tr s', texec (cProcs C) M (cCells C) tr s s' -> forall x, cCells C x -> In (mem (sh s') x) L.
Proof. exact seen_all. Qed.
Print Assumptions C54_seen.

(** SortSlice and SortLen, whatever the elements. *)
Theorem C54_seen_any : forall pl tn opt e sl m0 M s L X N, platOk pl -> tuningOk pl tn -> typedSlice pl e m0 sl ->
  marking true true (typedCall pl tn opt e sl m0) M s L X N -> ended (typedCall pl tn opt e sl m0) s X N ->
  forall tr s', texec (cProcs (typedCall pl tn opt e sl m0)) M (cellsOf sl) tr s s' -> forall x, cellsOf sl x -> In (mem (sh s') x) L.
Proof. exact seen_any. Qed.
Print Assumptions C54_seen_any.

(** If the collection is in order already, nothing is missed even without barrier and with stacks ignored. *)
Theorem C54_seen_sorted : forall pl tn T (C : call T) barrier stacks M s L X N, platOk pl -> nearMean pl -> tuningOk pl tn ->
  sortedCall pl tn C -> marking barrier stacks C M s L X N -> ended C s X N ->
  forall x, cCells C x -> In (cInit C x) L /\ mem (sh s) x = cInit C x.
Proof. exact seen_sorted. Qed.
Print Assumptions C54_seen_sorted.

(** But the stores of SortSlice to a slice of pointers have no barrier, and so an element may be missed, even if
    all that is on stacks counts as a pointer ... *)
Theorem C54_pointers_refuted : exists pl tn opt e (s : slice) (m0 : Z -> elem e) M st L X N v,
  platOk pl /\ tuningOk pl tn /\ dispatchSlice (wb pl) (RSlice rPointer) = Some e /\ typedSlice pl e m0 s /\
  marking false true (typedCall pl tn opt e s m0) M st L X N /\ ended (typedCall pl tn opt e s m0) st X N /\
  returned st tt /\ In v (contents m0 s) /\ In v (contents (mem (sh st)) s) /\ ~ In v L.
Proof. exact pointer_missed. Qed.
Print Assumptions C54_pointers_refuted.

(** ... and at some moments only an integer variable holds it. *)
Theorem C54_variables_refuted : exists pl tn opt e (s : slice) (m0 : Z -> elem e) M k st v,
  platOk pl /\ tuningOk pl tn /\ dispatchSlice (wb pl) (RSlice rPointer) = Some e /\ typedSlice pl e m0 s /\
  reach (typedCall pl tn opt e s m0) M k st /\ In v (contents m0 s) /\ ~ In v (contents (mem (sh st)) s).
Proof. exact pointer_nowhere. Qed.
Print Assumptions C54_variables_refuted.

(** 50 strings, half of them scanned while three goroutines sort them, the rest and the stacks after that. *)
Example C54_example : sortCall plat64 tiny sCall /\ exists L X N, marking true true sCall 3 sEnd L X N /\ ended sCall sEnd X N /\
  returned sEnd tt /\ (2 <= length (thr sMid))%nat /\ ~ returned sMid tt /\
  contents (mem (sh sMid)) sSlice <> contents (mem (sh sEnd)) sSlice.
Proof. exact (conj ex_s_call ex_strings_marked). Qed.

(** ** C55: a Lesswap that does not return *)

(** If a Lesswap blocks for ever or ends its goroutine (runtime.Goexit), Sort never returns, that is, it does not
    return before everything is in order ... *)
Theorem C55_no_return : forall pl tn, platOk pl -> tuningOk pl tn -> forall T (C : call T), sortCall pl tn C ->
  forall M k D s, forsaken C M k D s -> D <> [] -> ~ returned s tt.
Proof. exact (fun pl tn Hpl Htn T C => @forsaken_no_return pl tn Hpl Htn T C). Qed.
Print Assumptions C55_no_return.

(** ... the other goroutines stay within their elements, do not race, and have a limited number of steps to make; they
    move unless all of them have ended or wait for each other ... *)
Theorem C55_harmless : forall pl tn, platOk pl -> tuningOk pl tn -> forall T (C : call T), sortCall pl tn C ->
  forall M k D s, forsaken C M k D s ->
  ~ panicked s /\ ~ race s /\ (forall x w, In (Some (x, w)) (accesses s) -> cCells C x) /\
  Z.of_nat k <= 100 * cLen C * cLen C + 6 * cLen C + 20 /\
  (waiting D s <-> forall e s', Trace.tstep (cProcs C) e s s' -> exists t, doneBy e t /\ In t D).
Proof. exact (fun pl tn Hpl Htn T C => @forsaken_safe pl tn Hpl Htn T C). Qed.
Print Assumptions C55_harmless.

(** ... which they do in the end. *)
Theorem C55_rests : forall pl tn, platOk pl -> tuningOk pl tn -> forall T (C : call T), sortCall pl tn C ->
  forall M k D s, forsaken C M k D s ->
  exists j s', forsaken C M (j + k) D s' /\ exec (cProcs C) M (cCells C) j s s' /\ waiting D s'.
Proof. exact (fun pl tn Hpl Htn T C => @forsaken_rests pl tn Hpl Htn T C). Qed.
Print Assumptions C55_rests.

(** No element is lost, but those that the stopped goroutines were about to store. *)
Theorem C55_elements : forall pl tn T (lt : T -> T -> bool) cap n m0 M k D s, platOk pl -> tuningOk pl tn ->
  irreflexive lt -> 0 <= n <= cap -> 11 * n + 18 < 10 * intSize pl -> forsaken (lswCall pl tn lt cap n m0) M k D s ->
  exists v, Permutation (contents v (Slice 0 n)) (contents m0 (Slice 0 n)) /\
    forall x, 0 <= x < n -> ~ In (Some (x, true)) (accesses s) -> mem (sh s) x = v x.
Proof. exact forsaken_elements. Qed.
Print Assumptions C55_elements.

(** 60 pairs: the second goroutine started stops while comparing; the caller waits for it for ever. *)
Theorem C55_blocked : exists pl tn T (C : call T) M k D s, platOk pl /\ tuningOk pl tn /\ sortCall pl tn C /\
  forsaken C M k D s /\ waiting D s /\ ~ In O D /\ exists c, view (main s) = HRecv c.
Proof.
  destruct blocked as (k & s & A & B & D). exists plat64, tiny, _, pCall, 3, k, [2%nat], s.
  exact (conj plat64_ok (conj tiny_ok (conj ex_lsw_call (conj A (conj B (conj (fun H : In O [2%nat] => match H with or_introl E => O_S _ (eq_sym E) | or_intror F => F end) D)))))).
Qed.
Print Assumptions C55_blocked.

(** ** C56: the goroutines of a call, over its whole execution

    C43 is about one moment. In all, no more goroutines work on parts of the collection than it has
    parts of more than MaxLenRec elements. Each of them is counted in (but the caller) and out once: the
    counter is updated less than twice for each. (The helpers of partCon, which look through elements
    for the caller while it does so, do not count.) *)

Theorem C56_goroutines : forall pl tn T (C : call T) M tr s idx, platOk pl -> tuningOk pl tn -> sortCall pl tn C -> traced C M tr s ->
  NoDup idx -> (forall t, In t idx -> In (EvAtomic t) tr) ->
  let q := cLen C / ((if cFC C then maxLenRecFC tn else maxLenRec tn) + 1) in
  Z.of_nat (length idx) <= q /\ atoms tr <= Z.max 0 (2 * q - 1).
Proof. exact call_tally. Qed.
Print Assumptions C56_goroutines.

(** Both bounds are attained, in an execution until the return. *)
Example C56_example : sortCall plat64 tiny spreadCall /\
  exists tr s idx, traced spreadCall 9 tr s /\ returned s tt /\ NoDup idx /\ (forall t, In t idx -> In (EvAtomic t) tr) /\
    cLen spreadCall / (maxLenRec tiny + 1) = 4 /\ length idx = 4%nat /\ atoms tr = 7.
Proof. exact (conj ex_spread_call spread_tally). Qed.

(** ** C57: Sort sees elements only through comparisons

    If two collections compare alike, position by position ([compareAlike]), then whatever happens when one is sorted can
    happen when the other is sorted: the same events in the same order (accesses, goroutine starts, channel operations,
    updates of the counter), and the elements are rearranged alike ([rearranged]), at every moment. *)

Theorem C57_alike : forall pl tn cap n T1 T2 (lt1 : T1 -> T1 -> bool) (lt2 : T2 -> T2 -> bool) m1 m2 M tr s1, platOk pl -> tuningOk pl tn ->
  0 <= n <= cap -> 11 * n + 18 < 10 * intSize pl ->
  (forall i, 0 <= i < n -> lt1 (m1 i) (m1 i) = false) -> compareAlike lt1 m1 lt2 m2 n ->
  traced (lswCall pl tn lt1 cap n m1) M tr s1 ->
  exists s2 f, traced (lswCall pl tn lt2 cap n m2) M tr s2 /\ rearranged f m1 m2 n s1 s2 /\
    accesses s1 = accesses s2 /\ ngor (sh s1) = ngor (sh s2) /\ maxg (sh s1) = maxg (sh s2) /\ (returned s1 tt <-> returned s2 tt) /\
    (returned s1 tt -> Permutation (contents f (Slice 0 n)) (contents (fun i => i) (Slice 0 n))).
Proof. exact (fun pl tn cap n T1 T2 lt1 lt2 m1 m2 M tr s1 a b c d => alike_traced pl tn a b cap n c d T1 T2 lt1 lt2 m1 m2 M tr s1). Qed.
Print Assumptions C57_alike.

(** If only a part [h] of the elements is compared, it goes through what it would go through alone, in both directions. *)
Theorem C57_part : forall pl tn T1 T2 (h : T1 -> T2) (lt : T2 -> T2 -> bool) cap n m M tr, platOk pl -> tuningOk pl tn -> 0 <= n <= cap ->
  11 * n + 18 < 10 * intSize pl -> (forall i, 0 <= i < n -> lt (h (m i)) (h (m i)) = false) ->
  let C1 := lswCall pl tn (fun x y => lt (h x) (h y)) cap n m in let C2 := lswCall pl tn lt cap n (fun i => h (m i)) in
  (forall s1, traced C1 M tr s1 -> exists s2, traced C2 M tr s2 /\ (returned s1 tt <-> returned s2 tt) /\
     map h (contents (mem (sh s1)) (Slice 0 n)) = contents (mem (sh s2)) (Slice 0 n)) /\
  (forall s2, traced C2 M tr s2 -> exists s1, traced C1 M tr s1 /\ (returned s1 tt <-> returned s2 tt) /\
     map h (contents (mem (sh s1)) (Slice 0 n)) = contents (mem (sh s2)) (Slice 0 n)).
Proof. exact part_traced. Qed.
Print Assumptions C57_part.

(** 60 pairs compared by their first components, and these alone; a concurrent execution. *)
Example C57_example : compareAlike pairGt pMem (fun x y => y <? x) (fun i => fst (pMem i)) 60 /\
  (forall i, 0 <= i < 60 -> pairGt (pMem i) (pMem i) = false) /\
  exists tr s, traced pCall 3 tr s /\ returned s tt /\ (1 <= length (thr s))%nat.
Proof. exact (conj (proj1 key_alike) (conj (proj2 key_alike) key_run)). Qed.

(** ** C58: Sort needs an order only among the elements present *)

Theorem C58_present : forall pl tn cap n T (lt : T -> T -> bool) m0 M k s, platOk pl -> tuningOk pl tn -> 0 <= n <= cap ->
  11 * n + 18 < 10 * intSize pl -> weakAmong lt (contents m0 (Slice 0 n)) ->
  let C := lswCall pl tn lt cap n m0 in reach C M k s ->
  ~ panicked s /\ ~ race s /\ (forall x w, In (Some (x, w)) (accesses s) -> 0 <= x < n) /\ Z.of_nat k <= 100 * n * n + 6 * n + 20 /\
  (exists j s', exec (cProcs C) M (cCells C) j s s' /\ returned s' tt) /\
  (returned s tt -> Permutation (contents (mem (sh s)) (Slice 0 n)) (contents m0 (Slice 0 n)) /\
     noSmallerAfter lt (contents (mem (sh s)) (Slice 0 n))).
Proof. exact (fun pl tn cap n T lt m0 M k s a b c d => present_sorted pl tn a b cap n c d T lt m0 M k s). Qed.
Print Assumptions C58_present.

(** A comparison that is not even irreflexive, but an order among the elements of the collection. *)
Example C58_example : weakAmong someLt (contents someMem (Slice 0 60)) /\ ~ irreflexive someLt /\
  exists k st, reach someCall 3 k st /\ returned st tt /\ (1 <= length (thr st))%nat /\
    firstn 6 (contents (mem (sh st)) (Slice 0 60)) = [Some 0; Some 0; Some 0; Some 1; Some 1; Some 1].
Proof. exact (conj (proj1 some_among) (conj (proj2 some_among) some_run)). Qed.

(** ** C59: SortSlice sees the contents of strings and byte slices, SortLen their lengths

    Where they are stored, the capacity and for SortLen the contents play no part; and strings are treated as byte slices with the
    same contents are. *)

Theorem C59_alike : forall pl tn opt s M e1 e2 m1 m2 tr s1, platOk pl -> tuningOk pl tn ->
  sameWay e1 e2 -> typedSlice pl e1 m1 s -> typedSlice pl e2 m2 s ->
  (forall i, cellsOf s i -> looksAlike e1 e2 (m1 i) (m2 i)) ->
  traced (typedCall pl tn opt e1 s m1) M tr s1 ->
  exists s2 f, traced (typedCall pl tn opt e2 s m2) M tr s2 /\ movedAlike f m1 m2 s s1 s2 /\
    accesses s1 = accesses s2 /\ ngor (sh s1) = ngor (sh s2) /\ maxg (sh s1) = maxg (sh s2) /\ (returned s1 tt <-> returned s2 tt) /\
    (returned s1 tt -> Permutation (contents f s) (contents (fun i => i) s)).
Proof. exact (fun pl tn opt s M e1 e2 m1 m2 tr s1 a b => alike_typed pl tn a b opt s M e1 e2 m1 m2 tr s1). Qed.
Print Assumptions C59_alike.

Example C59_example : sameWay TS TB /\ typedSlice plat64 TS sMem sSlice /\ typedSlice plat64 TB bMem sSlice /\
  (forall i, cellsOf sSlice i -> looksAlike TS TB (sMem i) (bMem i)) /\
  exists tr s, traced sCall 3 tr s /\ returned s tt /\ (1 <= length (thr s))%nat.
Proof.
  exact (conj (or_introl (conj (or_introl eq_refl) (or_intror (or_introl eq_refl))))
    (conj (proj1 ex_s_typed) (conj ex_b_typed (conj text_alike text_run)))).
Qed.

(** ** C60: Sort looks at every element

    It cannot return before having passed every position to Lesswap, whatever the elements and the irreflexive comparison. *)

Theorem C60_looks : forall pl tn cap n T (lt : T -> T -> bool) m i M tr s, platOk pl -> tuningOk pl tn -> 2 <= n <= cap ->
  11 * n + 18 < 10 * intSize pl -> (forall j, 0 <= j < n -> lt (m j) (m j) = false) -> 0 <= i < n ->
  traced (lswCall pl tn lt cap n m) M tr s -> returned s tt -> exists t, In (EvRead t i) tr.
Proof. exact (fun pl tn cap n T lt m i M tr s a b c d e f => reads_all pl tn a b cap n c d lt m e i f M tr s). Qed.
Print Assumptions C60_looks.

Example C60_example : (forall j, 0 <= j < 60 -> pairGt (pMem j) (pMem j) = false) /\
  exists tr s, traced pCall 3 tr s /\ returned s tt /\ (1 <= length (thr s))%nat.
Proof. exact (conj (proj2 key_alike) key_run). Qed.

(** ** C61: SortSlice sees floats, strings and byte slices only through their order

    If the elements of two slices of floats (or of strings or byte slices) are NaN at the same places and ordered alike
    otherwise, whatever can happen while the one is sorted can happen while the other is sorted, and corresponding elements are
    at corresponding places all the time. *)
Theorem C61_order : forall pl tn opt s M e1 e2 m1 m2 tr s1, platOk pl -> tuningOk pl tn ->
  sameSort e1 e2 -> typedSlice pl e1 m1 s -> typedSlice pl e2 m2 s -> orderedAlike e1 e2 m1 m2 s ->
  traced (typedCall pl tn opt e1 s m1) M tr s1 ->
  exists s2 f, traced (typedCall pl tn opt e2 s m2) M tr s2 /\ movedAlike f m1 m2 s s1 s2 /\
    accesses s1 = accesses s2 /\ ngor (sh s1) = ngor (sh s2) /\ maxg (sh s1) = maxg (sh s2) /\ (returned s1 tt <-> returned s2 tt) /\
    (returned s1 tt -> Permutation (contents f s) (contents (fun i => i) s)).
Proof. exact (fun pl tn opt s M e1 e2 m1 m2 tr s1 a b => ordered_alike pl tn a b opt s M e1 e2 m1 m2 tr s1). Qed.
Print Assumptions C61_order.

(** 50 float32, NaNs among them, under NaNignore, and 50 float64. *)
Example C61_example : sameSort TF4 TF8 /\ typedSlice plat64 TF4 mixMem f32Slice /\ typedSlice plat64 TF8 wideMem f32Slice /\
  orderedAlike TF4 TF8 mixMem wideMem f32Slice /\
  exists tr s, traced mixCall 3 tr s /\ returned s tt /\ (2 <= length (thr s))%nat.
Proof.
  exact (conj (or_introl (conj (or_introl eq_refl) (or_intror (or_introl eq_refl))))
    (conj ex_mix_typed (conj wide_typed (conj wide_alike mix_traced)))).
Qed.

(** Integers with the same order are not enough: two slices of 80 uint64 that are ordered alike, and a whole execution of the one call,
    with the shipped parameters, that the other call does not have. *)
Theorem C61_integers_refuted : forall M, 0 <= M -> exists s m1 m2 tr s1,
  typedSlice plat64 TU8 m1 s /\ typedSlice plat64 TU8 m2 s /\ orderedAlike TU8 TU8 m1 m2 s /\
  traced (typedCall plat64 shipped 1 TU8 s m1) M tr s1 /\ returned s1 tt /\
  forall s2, ~ traced (typedCall plat64 shipped 1 TU8 s m2) M tr s2.
Proof. exact order_refuted. Qed.
Print Assumptions C61_integers_refuted.

(** ** C62: SortSlice and SortLen see only the values of integers and lengths

    The element type makes no difference: int32, int64, uint32, uint64 with equal values, and strings or slices with these lengths,
    go through the same executions.  The only condition is that sixb's mean functions for the two types agree. *)
Theorem C62_numbers : forall pl tn opt s M e1 e2 m1 m2 tr s1, platOk pl -> tuningOk pl tn ->
  number e1 -> number e2 -> meansAgree pl e1 e2 -> typedSlice pl e1 m1 s -> typedSlice pl e2 m2 s ->
  (forall i, cellsOf s i -> numberOf e1 (m1 i) = numberOf e2 (m2 i)) ->
  traced (typedCall pl tn opt e1 s m1) M tr s1 ->
  exists s2 f, traced (typedCall pl tn opt e2 s m2) M tr s2 /\ movedAlike f m1 m2 s s1 s2 /\
    accesses s1 = accesses s2 /\ ngor (sh s1) = ngor (sh s2) /\ maxg (sh s1) = maxg (sh s2) /\ (returned s1 tt <-> returned s2 tt) /\
    (returned s1 tt -> Permutation (contents f s) (contents (fun i => i) s)).
Proof. exact (fun pl tn opt s M e1 e2 m1 m2 tr s1 a b => numbers_alike pl tn a b opt s M e1 e2 m1 m2 tr s1). Qed.
Print Assumptions C62_numbers.

Example C62_example : number TI8 /\ number TI4 /\ meansAgree plat64 TI8 TI4 /\ typedSlice plat64 TI8 exMem exSlice /\
  typedSlice plat64 TI4 narrowMem exSlice /\ (forall i, cellsOf exSlice i -> numberOf TI8 (exMem i) = numberOf TI4 (narrowMem i)) /\
  exists tr s, traced exCall 3 tr s /\ returned s tt /\ length (thr s) = 2%nat /\ contents (mem (sh s)) exSlice = exSorted.
Proof.
  exact (conj (or_intror (or_introl eq_refl)) (conj (or_introl eq_refl) (conj narrow_means (conj ex_int_typed
    (conj narrow_typed (conj narrow_same int_traced)))))).
Qed.
