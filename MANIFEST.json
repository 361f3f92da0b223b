{
 "claims": [
  {
   "property": "C01",
   "status": "proved",
   "theorems": [
    "C01_sort_integers"
   ],
   "note": ""
  },
  {
   "property": "C02",
   "status": "proved",
   "theorems": [
    "C02_sort_floats_nan_large"
   ],
   "note": ""
  },
  {
   "property": "C03",
   "status": "proved",
   "theorems": [
    "C03_sort_floats_nan_small"
   ],
   "note": ""
  },
  {
   "property": "C04",
   "status": "proved",
   "theorems": [
    "C04_sort_strings",
    "C04_sort_bytes"
   ],
   "note": ""
  },
  {
   "property": "C05",
   "status": "proved",
   "theorems": [
    "C05_sort_len_strings",
    "C05_sort_len_slices"
   ],
   "note": ""
  },
  {
   "property": "C06",
   "status": "proved",
   "theorems": [
    "C06_sort_lesswap",
    "C06_sort_large_refuted"
   ],
   "note": "n < 10/11 of 2^31 (32-bit) or 2^63 (64-bit platforms), up to a constant; C06_sort_large_refuted shows the failure for every larger n"
  },
  {
   "property": "C07",
   "status": "proved",
   "theorems": [
    "C07_frame",
    "C07_accesses",
    "C07_lesswap_indices"
   ],
   "note": "lesswap of the model panics on any argument outside the collection, even unused ones"
  },
  {
   "property": "C08",
   "status": "proved",
   "theorems": [
    "C08_no_panic"
   ],
   "note": ""
  },
  {
   "property": "C09",
   "status": "proved",
   "theorems": [
    "C09_step_bound",
    "C09_can_finish"
   ],
   "note": ""
  },
  {
   "property": "C10",
   "status": "proved",
   "theorems": [
    "C10_progress"
   ],
   "note": ""
  },
  {
   "property": "C11",
   "status": "proved",
   "theorems": [
    "C11_no_race"
   ],
   "note": ""
  },
  {
   "property": "C12",
   "status": "proved",
   "theorems": [
    "C12_quiet_after_return"
   ],
   "note": ""
  },
  {
   "property": "C13",
   "status": "proved",
   "theorems": [
    "C13_single_goroutine",
    "C13_one_channel"
   ],
   "note": ""
  },
  {
   "property": "C14",
   "status": "proved",
   "theorems": [
    "C14_quota_refuted",
    "C14_active_bound",
    "C14_outdated_refuted"
   ],
   "note": "documented bound refuted by an execution; true bound proved for executions in which gorFull's plain read of the counter is up to date (all other theorems hold for arbitrary values of that read)"
  },
  {
   "property": "C15",
   "status": "proved",
   "theorems": [
    "C15_counter"
   ],
   "note": ""
  },
  {
   "property": "C16",
   "status": "proved",
   "theorems": [
    "C16_search_lowest"
   ],
   "note": ""
  },
  {
   "property": "C17",
   "status": "proved",
   "theorems": [
    "C17_search_any"
   ],
   "note": ""
  },
  {
   "property": "C18",
   "status": "proved",
   "theorems": [
    "C18_is_sorted",
    "C18_is_sorted_safe"
   ],
   "note": ""
  },
  {
   "property": "C19",
   "status": "proved",
   "theorems": [
    "C19_is_sorted_slice",
    "C19_C20_C21_safe"
   ],
   "note": ""
  },
  {
   "property": "C20",
   "status": "proved",
   "theorems": [
    "C20_is_sorted_floats",
    "C19_C20_C21_safe"
   ],
   "note": ""
  },
  {
   "property": "C21",
   "status": "proved",
   "theorems": [
    "C21_is_sorted_len",
    "C19_C20_C21_safe"
   ],
   "note": ""
  },
  {
   "property": "C22",
   "status": "proved",
   "theorems": [
    "C22_check_after_sort",
    "C22_lesswap_check_after_sort"
   ],
   "note": ""
  },
  {
   "property": "C23",
   "status": "proved",
   "theorems": [
    "C23_dispatch_slice",
    "C23_dispatch_len",
    "C23_sort",
    "C23_check"
   ],
   "note": ""
  },
  {
   "property": "C24",
   "status": "proved",
   "theorems": [
    "C24_same_result",
    "C24_lesswap_same_result"
   ],
   "note": ""
  },
  {
   "property": "C25",
   "status": "proved",
   "theorems": [
    "C25_two_calls",
    "C25_many_calls"
   ],
   "note": ""
  },
  {
   "property": "C26",
   "status": "proved",
   "theorems": [
    "C26_nan_free",
    "C26_nan_ignore_diverges"
   ],
   "note": "NaN-free inputs proved for every option; divergence for every all-NaN slice longer than MaxLenIns that is sorted in one goroutine (shorter than 2*(MaxLenRec+1), or MaxGor <= 1): no reachable state has returned or panicked and each has a next step"
  },
  {
   "property": "C27",
   "status": "proved",
   "theorems": [
    "C27_sort_degenerate",
    "C27_is_sorted_degenerate",
    "C27_slices_degenerate",
    "C27_sort_min_int_refuted",
    "C27_is_sorted_min_int_refuted"
   ],
   "note": "smallest int refuted"
  },
  {
   "property": "C28",
   "status": "proved",
   "theorems": [
    "C28_every_tuning",
    "C28_init",
    "C28_shipped",
    "C28_huge_tuning_refuted"
   ],
   "note": "tuples with 2*(MaxLenRec+1) overflowing refuted"
  },
  {
   "property": "C29",
   "status": "proved",
   "theorems": [
    "C29_depth"
   ],
   "note": ""
  },
  {
   "property": "C30",
   "status": "proved",
   "theorems": [
    "C30_samples_optimal",
    "C30_four_agrees"
   ],
   "note": ""
  },
  {
   "property": "C31",
   "status": "proved",
   "theorems": [
    "C31_split",
    "C31_lesswap_split",
    "C31_concurrent_split",
    "C31_lesswap_concurrent_split"
   ],
   "note": "sequential splits and the concurrent first split of the typed sorters and of Sort, on the machine"
  },
  {
   "property": "C32",
   "status": "proved",
   "theorems": [
    "C32_stable",
    "C32_lesswap_stable",
    "C32_nan_refuted"
   ],
   "note": "NaN inputs refuted"
  },
  {
   "property": "C33",
   "status": "proved",
   "theorems": [
    "C33_any_comparison",
    "C33_consistent_order",
    "C33_reflexive_refuted"
   ],
   "note": "comparisons with x < x are refuted by an unsorted result and a data race"
  },
  {
   "property": "C34",
   "status": "proved",
   "theorems": [
    "C34_traces",
    "C34_ordered"
   ],
   "note": "happens-before from program order, go statements, atomic additions and the unbuffered channel; the plain read of the counter in gorFull (which the source exempts with go:norace) synchronises nothing here and is itself not counted as an element access"
  },
  {
   "property": "C35",
   "status": "proved",
   "theorems": [
    "C35_no_harm",
    "C35_no_race"
   ],
   "note": "For all ten element types; the proof uses no law of the comparison (AnySeq.v, AnySort.v)."
  },
  {
   "property": "C36",
   "status": "proved",
   "theorems": [
    "C36_permuted",
    "C36_exchanges",
    "C36_typed_refuted"
   ],
   "note": "C36_typed_refuted is the parenthesised contrast for SortSlice"
  },
  {
   "property": "C37",
   "status": "proved",
   "theorems": [
    "C37_same",
    "C37_runs",
    "C37_sorted",
    "C37_nans",
    "C37_includes"
   ],
   "note": "weak machine: a read may return any earlier write not overwritten in happens-before; reads of writes executed later are not modelled"
  },
  {
   "property": "C38",
   "status": "proved",
   "theorems": [
    "C38_one_each",
    "C38_lesswap_one_each"
   ],
   "note": "hole : nat -> option Z gives the one cell of each goroutine; quiet goroutines (returned, exiting, or only sending/receiving before that) do not count"
  },
  {
   "property": "C39",
   "status": "proved",
   "theorems": [
    "C39_live_option",
    "C39_live_nan_free",
    "C39_live_no_harm",
    "C39_small_then_large_diverges",
    "C39_live_check",
    "C39_check_small_then_large_refuted"
   ],
   "note": "the two reads return arbitrary o1, o2; the divergence and the wrong answer of the checker are consequences of the code reading the variable twice"
  },
  {
   "property": "C40",
   "status": "proved",
   "theorems": [
    "C40_search_sorted",
    "C40_search_lesswap_sorted"
   ],
   "note": "composition of C01-C06 with C16; fn reads the final memory of the sort call"
  },
  {
   "property": "C41",
   "status": "proved",
   "theorems": [
    "C41_layout",
    "C41_bytes"
   ],
   "note": "An element access is one step also when it is several words (string and slice headers); C42 is about accesses in parts."
  },
  {
   "property": "C42",
   "status": "proved",
   "theorems": [
    "C42_parts",
    "C42_bytes"
   ],
   "note": "Interleaving semantics of the accesses to parts (the Go memory model's weaker guarantees are C37, for whole elements)."
  },
  {
   "property": "C43",
   "status": "proved",
   "theorems": [
    "C43_spread",
    "C43_spread_any"
   ],
   "note": "C43_spread_any (any float values) counts the goroutines about to access an element."
  },
  {
   "property": "C44",
   "status": "proved",
   "theorems": [
    "C44_untouched",
    "C44_steps",
    "C44_together",
    "C44_twice_typed",
    "C44_twice_lsw"
   ],
   "note": "Needs that sixb.MeanI (not in /repo) rounds to a neighbour of the exact mean; the rest of the contract in platOk is not enough (Example C44_example_mean)."
  },
  {
   "property": "C45",
   "status": "proved",
   "theorems": [
    "C45_quadratic",
    "C45_values",
    "C45_lesswap"
   ],
   "note": "A step is one action of the model machine: an access to an element, a call, or one turn of a loop. MaxGor <= 1."
  },
  {
   "property": "C46",
   "status": "proved",
   "theorems": [
    "C46_shared_slice",
    "C46_shared_lesswap",
    "C46_alone"
   ],
   "note": "Non-NaN elements are counted by any division of the contents into numbers and the rest (resp. NaNs and the rest)."
  },
  {
   "property": "C47",
   "status": "proved",
   "theorems": [
    "C47_results",
    "C47_reproducible",
    "C47_schedule_refuted"
   ],
   "note": "C47_schedule_refuted refutes that the result is unique; the other two are the true statement."
  },
  {
   "property": "C48",
   "status": "proved",
   "theorems": [
    "C48_any_lesswap",
    "C48_resources",
    "C48_any_answer",
    "C48_any_answer_goroutine"
   ],
   "note": "C33 is the same for consistent but not strict comparisons, with order and race statements; here nothing at all is assumed. C48_any_answer(_goroutine) show that the semantics [disturbed] really contains every sequence of answers. The model of Lesswap checks r and s even if it exchanges nothing, so not panicking with cap = n says that all four arguments are in [0,n)."
  },
  {
   "property": "C49",
   "status": "proved",
   "theorems": [
    "C49_any_elements",
    "C49_resources",
    "C49_no_time_bound"
   ],
   "note": "The goroutine statement counts goroutines about to access an element. Elements are read and written as wholes (a string header torn between its two words, C42, is outside this theorem); for the Go memory model such a program has a data race, the theorem is about the interleaving semantics. C49_no_time_bound is about the caller's goroutine alone (MaxGor read as 0)."
  },
  {
   "property": "C50",
   "status": "proved",
   "theorems": [
    "C50_left_behind",
    "C50_elements",
    "C50_settles",
    "C50_unattended"
   ],
   "note": "The panic is modelled as the caller's goroutine leaving the call at any moment at which it is about to read an element in Lesswap (both reads of an exchange come before its two writes). Nothing in sorty defers or recovers, so unwinding has no effect of its own. A panic in a goroutine started by Sort ends the whole program in Go and is not modelled. Nobody else touches the collection after the panic in these executions."
  },
  {
   "property": "C51",
   "status": "proved",
   "theorems": [
    "C51_watched",
    "C51_result",
    "C51_lesswap",
    "C51_no_snapshot"
   ],
   "note": "C51_result assumes that only proper values of the element type are written (typedSlice in every state passed). Elements are read as wholes; for the Go memory model such a program has a data race, the theorems are about the interleaving semantics. NaNoption does not change during the call (C39 is about that)."
  },
  {
   "property": "C52",
   "status": "proved",
   "theorems": [
    "C52_parts",
    "C52_bytes",
    "C52_includes",
    "C52_weaker"
   ],
   "note": "As in C37, a read sees only writes that precede it in the order of execution. C52_weaker: the machine does mix old and new parts for a program without synchronization."
  },
  {
   "property": "C53",
   "status": "proved",
   "theorems": [
    "C53_no_race",
    "C53_same",
    "C53_runs",
    "C53_sorted",
    "C53_ends",
    "C53_nans",
    "C53_sort_no_race",
    "C53_sort_same",
    "C53_sort_any_reads_refuted",
    "C53_calls_run",
    "C53_calls_sort",
    "C53_calls_end",
    "C53_includes",
    "C53_weaker"
   ],
   "note": "C53_no_race is about SortSlice and SortLen with arbitrary reads; Sort with a caller's Lesswap is race-free in the executions that explain their reads (C53_sort_*, C53_calls_*; they need sixb.MeanI to round to a neighbour). C53_weaker: the machine does produce a value out of thin air for a racy program, which that of C37 does not. C53_sort_any_reads_refuted: with arbitrary reads Sort does race."
  },
  {
   "property": "C54",
   "status": "proved",
   "theorems": [
    "C54_seen",
    "C54_seen_any",
    "C54_seen_sorted",
    "C54_pointers_refuted",
    "C54_variables_refuted"
   ],
   "note": "The claim for slices of pointers is refuted (C54_pointers_refuted, C54_variables_refuted). Model of the collector: DESIGN 4."
  },
  {
   "property": "C55",
   "status": "proved",
   "theorems": [
    "C55_no_return",
    "C55_harmless",
    "C55_rests",
    "C55_elements",
    "C55_blocked"
   ],
   "note": "Stops are at accesses to elements, which is where Lesswap is called. C55_elements is for Sort with an irreflexive order and swaps that write one element after the other."
  },
  {
   "property": "C56",
   "status": "proved",
   "theorems": [
    "C56_goroutines"
   ],
   "note": "For calls with known results (sortCall; floats with NaNs under NaNignore are not covered). The helpers of partCon (partTwo) do not update the counter and are not counted. Both bounds are attained: C56_example."
  },
  {
   "property": "C57",
   "status": "proved",
   "theorems": [
    "C57_alike",
    "C57_part"
   ],
   "note": "Sort(n, lsw) only: SortSlice also reads the elements to compute pivots. The two collections have the same capacity (positions Lesswap accepts). Existence: an execution with the same trace, not the same internal state of the scheduler; the converse direction is the same theorem with the collections exchanged."
  },
  {
   "property": "C58",
   "status": "proved",
   "theorems": [
    "C58_present"
   ],
   "note": "Strengthens C06, C07 and others, which assume an order on the whole type, by C57's simulation."
  },
  {
   "property": "C59",
   "status": "proved",
   "theorems": [
    "C59_alike"
   ],
   "note": "After the dispatch on the dynamic type (C23). For numbers see C61 and C62. The statement is existence of an execution with the same trace; exchange the slices for the converse."
  },
  {
   "property": "C60",
   "status": "proved",
   "theorems": [
    "C60_looks"
   ],
   "note": "So at least n reads of elements, by Lesswap, in every execution that returns. Sort only: for SortSlice an unread element could be in place by chance if all others are extreme values of their type."
  },
  {
   "property": "C61",
   "status": "proved",
   "theorems": [
    "C61_order",
    "C61_integers_refuted"
   ],
   "note": "After the dispatch on the dynamic type (C23). Covers NaNs under NaNignore. Integers are different, as their pivots are means: C61_integers_refuted gives two slices of uint64 ordered alike and an execution that only one of them has (with the mean function of the example platform); see C62."
  },
  {
   "property": "C62",
   "status": "proved",
   "theorems": [
    "C62_numbers"
   ],
   "note": "sixb is not part of the repository: that its mean functions agree on common values is a hypothesis (true if they all round down, as for the example platform)."
  }
 ]
}