{"id": "C01", "title": "SortSlice sorts every integer/pointer slice", "statement": "When SortSlice returns on a slice of int32, int64, uint32, uint64 (and the kinds mapped to them: int, uint, uintptr, pointers), its elements are in ascending order and are a permutation of the original elements.", "quantifier": "every slice content and length, every goroutine interleaving, every initial value and every live change of MaxGor, every integer mean function that lies between its arguments", "why_tests_cant": "inputs of every length and content, goroutine interleavings and live MaxGor changes cannot be enumerated; a test run sees one schedule of one input", "anchors": ["sortySlice.go:SortSlice", "sortyI4.go:sortI4", "sortyI8.go:sortI8", "sortyU4.go:sortU4", "sortyU8.go:sortU8"]}
{"id": "C02", "title": "SortSlice sorts floats with NaNs last (NaNlarge)", "statement": "With NaNoption = NaNlarge, when SortSlice returns on []float32 or []float64, the slice is a permutation (bit patterns preserved, NaN payloads included) of the input, consisting of the non-NaN values ascending in IEEE order followed by all NaNs.", "quantifier": "every content (including infinities, signed zeros, denormals, NaNs with any payload), length, schedule and MaxGor history", "why_tests_cant": "inputs of every length and content, goroutine interleavings and live MaxGor changes cannot be enumerated; a test run sees one schedule of one input", "anchors": ["sortyF4.go:sortF4", "sortyF8.go:sortF8", "sorty.go:NaNoption"]}
{"id": "C03", "title": "SortSlice sorts floats with NaNs first (NaNsmall)", "statement": "With NaNoption = NaNsmall, when SortSlice returns on []float32 or []float64, the slice is a permutation of the input consisting of all NaNs followed by the non-NaN values ascending in IEEE order.", "quantifier": "every content, length, schedule and MaxGor history", "why_tests_cant": "inputs of every length and content, goroutine interleavings and live MaxGor changes cannot be enumerated; a test run sees one schedule of one input", "anchors": ["sortyF4.go:sortF4", "sortyF8.go:sortF8", "sorty.go:NaNoption"]}
{"id": "C04", "title": "SortSlice sorts strings and byte slices lexicographically", "statement": "When SortSlice returns on []string or [][]byte, the elements are in ascending bytewise lexicographic order and a permutation of the input.", "quantifier": "every content, length, schedule and MaxGor history", "why_tests_cant": "inputs of every length and content, goroutine interleavings and live MaxGor changes cannot be enumerated; a test run sees one schedule of one input", "anchors": ["sortyS.go:sortS", "sortyB.go:sortB", "sortySlice.go:SortSlice"]}
{"id": "C05", "title": "SortLen sorts by length", "statement": "When SortLen returns on []string or [][]T, the lengths of the elements are ascending and the elements are a permutation of the input elements.", "quantifier": "every content, length, schedule and MaxGor history", "why_tests_cant": "inputs of every length and content, goroutine interleavings and live MaxGor changes cannot be enumerated; a test run sees one schedule of one input", "anchors": ["sortyLen.go:SortLen", "sortyLenS.go:sortLenS", "sortyLenB.go:sortLenB"]}
{"id": "C06", "title": "Sort(n, lesswap) sorts any collection under a strict weak order", "statement": "If lesswap implements the documented contract over a collection of at least n elements with a strict weak order and n below 10/11 of the largest int, then when Sort(n, lsw) returns the first n elements are ordered (never less(j,i) for i<j<n) and are a permutation of the original first n elements. For larger n (but for three or four values at the limit, which the two theorems leave open) the claim is false, for every such n and every comparison: the sampling of the first pivot overflows int and calls lesswap with a negative index.", "quantifier": "every element type, every strict weak order, every content, every n with 11n + 18 < 10*2^31 (10*2^63), schedule and MaxGor history, 32- and 64-bit platforms; existence of a failing execution for every int n with 11n >= 10*2^31 + 17 (10*2^63 + 17), every content and comparison", "why_tests_cant": "inputs of every length and content, goroutine interleavings and live MaxGor changes cannot be enumerated; a test run sees one schedule of one input", "anchors": ["sortyLsw.go:Sort", "sortyLsw.go:Lesswap"]}
{"id": "C07", "title": "Sort* touches nothing outside the given elements", "statement": "No step of a SortSlice/SortLen call writes memory outside the slice or reads outside it; Sort(n, lsw) never passes lesswap an index outside [0,n) in any of its four arguments; elements of the collection beyond n are unchanged.", "quantifier": "every input, every prefix of every execution, every schedule", "why_tests_cant": "a stray write or an out-of-range index may appear only for particular contents and interleavings", "anchors": ["sortyLsw.go", "sortyI4.go", "sortyF4.go", "sortyS.go"]}
{"id": "C08", "title": "Sort* never panics on supported inputs", "statement": "SortSlice/SortLen on a supported slice and Sort(n, lsw) with a contract-abiding lesswap never panic (no index out of range, no slice bounds error, including &ar[0], &aq[0]) in any goroutine.", "quantifier": "every input, every reachable state of every execution", "why_tests_cant": "panics in a goroutine depend on pivots, contents and schedule", "anchors": ["sortyI4.go:shortI4", "sortyI4.go:partOneI4", "sortyI4.go:pivotI4", "sortyLsw.go:pivot"]}
{"id": "C09", "title": "Sort* always terminates, within a quadratic number of steps", "statement": "Every execution of a Sort* call is finite: the number of steps all goroutines of the call together can take is bounded by a fixed quadratic polynomial in the length, whatever the input and schedule.", "quantifier": "every input, every schedule (no fairness assumed), every MaxGor history", "why_tests_cant": "non-termination for adversarial inputs (all pivots extreme, all elements equal) and livelock cannot be excluded by finitely many runs", "anchors": ["sortyI4.go:shortI4", "sortyI4.go:longI4", "sortyI4.go:partConI4", "sortyLsw.go:long"]}
{"id": "C10", "title": "Sort* never deadlocks", "statement": "In every reachable state of a Sort* call that has not returned, some goroutine of the call can take a step; so no goroutine waits forever on the call's channel.", "quantifier": "every reachable state of every execution", "why_tests_cant": "deadlocks need particular interleavings of the shared done channel, used both for partition results and the end signal", "anchors": ["sortyI4.go:partConI4", "sortyI4.go:gLongI4", "sortyI4.go:sortI4", "sortyLsw.go:Sort"]}
{"id": "C11", "title": "Sort* has no data race on the sorted elements", "statement": "In no reachable state are two goroutines of the call about to access the same element with at least one of them writing.", "quantifier": "every reachable state of every execution", "why_tests_cant": "the race detector only sees executed schedules", "anchors": ["sortyI4.go:partConI4", "sortyLsw.go:partCon", "sortyLsw.go:partOne"]}
{"id": "C12", "title": "When Sort* returns its goroutines are finished", "statement": "At and after the return of a Sort* call no goroutine it started accesses the elements again, and none is blocked on the channel: every remaining goroutine only has to exit (no leak, no late write).", "quantifier": "every execution, every state at or after the return", "why_tests_cant": "late writes and leaks show only in rare interleavings of the final counter decrement", "anchors": ["sortyI4.go:gLongI4", "sortyI4.go:sortI4", "sortyLsw.go:gLong", "sortyLsw.go:Sort"]}
{"id": "C13", "title": "Single-goroutine mode creates no goroutine and no channel", "statement": "If MaxGor <= 1 throughout the call, or the input is short (fewer than 2*(MaxLenRec+1) elements; for strings and Sort the FC parameters), a Sort* call creates no goroutine and no channel; in all cases it creates at most one channel.", "quantifier": "every input, schedule and MaxGor history", "why_tests_cant": "absence of creation must hold for every input and length", "anchors": ["sorty.go:MaxGor", "sortyI4.go:sortI4", "sortyLsw.go:Sort", "README.md"]}
{"id": "C14", "title": "Goroutine quota", "statement": "Documentation: a Sort* call uses at most MaxGor goroutines concurrently (including the caller). This is false: with MaxGor = 3 four goroutines can be at work at once (the check of the quota is not atomic with the increment, and partitioning goroutines are not counted). What holds: as long as the unsynchronised read of the goroutine counter is up to date, never more than max(1, 2*(MaxGor-1)) goroutines of a call can be at work at once. With outdated reads, which the Go memory model allows, even that fails (three goroutines with MaxGor = 2).", "quantifier": "existence of a violating execution; for the true bound every reachable state of every execution with MaxGor bounded by a constant", "why_tests_cant": "exceeding the quota needs a particular interleaving of check and increment", "anchors": ["sorty.go:MaxGor", "sorty.go:gorFull", "sortyI4.go:longI4", "sortyI4.go:sortI4", "sortyI4.go:partConI4"]}
{"id": "C15", "title": "The goroutine counter never wraps, and zero means done", "statement": "The counter of a concurrent Sort* call is only ever incremented by one or decremented by one, never wraps around in either direction, and while the call is concurrent it is zero only when every element has reached its final place and no goroutine of the call will touch memory, the counter or start anything again.", "quantifier": "every reachable state of every execution", "why_tests_cant": "needs the interleaving-sensitive argument that increments precede decrements", "anchors": ["sorty.go:syncVar", "sortyI4.go:gLongI4", "sortyI4.go:longI4", "sortyI4.go:sortI4"]}
{"id": "C16", "title": "Search returns the lowest index satisfying a monotone predicate", "statement": "For n >= 0 and fn with fn(k) implies fn(k+1) on [0,n), Search(n, fn) returns the lowest k in [0,n) with fn(k), or n if there is none.", "quantifier": "every n and every monotone predicate", "why_tests_cant": "infinitely many predicates and sizes", "anchors": ["sorty.go:Search"]}
{"id": "C17", "title": "Search is safe and logarithmic for any predicate", "statement": "For any fn (monotone or not) Search terminates, calls fn only with arguments in [0,n), at most floor(log2 n)+1 times for n>=1 (never for n <= 0), and returns k such that fn(k-1) is false if k>0 and fn(k) is true if k<n.", "quantifier": "every n and every predicate", "why_tests_cant": "infinitely many predicates and sizes", "anchors": ["sorty.go:Search"]}
{"id": "C18", "title": "IsSorted(n, lesswap) is exact and read-only", "statement": "IsSorted returns 0 exactly when less(i,i-1) is false for all 0<i<n, otherwise the largest i in (0,n) with less(i,i-1); it never modifies the collection and only uses indices in [0,n).", "quantifier": "every collection, relation and n", "why_tests_cant": "infinitely many contents", "anchors": ["sortyLsw.go:IsSorted"]}
{"id": "C19", "title": "IsSortedSlice is exact on integers, strings and byte slices", "statement": "IsSortedSlice returns 0 exactly when the slice is ascending, otherwise the largest i>0 with ar[i] < ar[i-1]; it never writes and never panics.", "quantifier": "every content", "why_tests_cant": "infinitely many contents", "anchors": ["sortySlice.go:IsSortedSlice", "sortyI4.go:isSortedI4", "sortyS.go:isSortedS", "sortyB.go:isSortedB"]}
{"id": "C20", "title": "IsSortedSlice is exact on floats for every NaNoption", "statement": "With NaNlarge (NaNsmall), IsSortedSlice returns 0 exactly when the slice consists of ascending non-NaN values followed (preceded) by NaNs; otherwise it returns i>0 with ar[i] < ar[i-1] or one of them a NaN.", "quantifier": "every content and every NaNoption", "why_tests_cant": "infinitely many contents", "anchors": ["sortyF4.go:isSortedF4", "sortyF8.go:isSortedF8"]}
{"id": "C21", "title": "IsSortedLen is exact", "statement": "IsSortedLen returns 0 exactly when element lengths are ascending, otherwise the largest i>0 with len(ar[i]) < len(ar[i-1]); it never writes and never panics.", "quantifier": "every content", "why_tests_cant": "infinitely many contents", "anchors": ["sortyLen.go:IsSortedLen", "sortyLenS.go:isSortedLenS", "sortyLenB.go:isSortedLenB"]}
{"id": "C22", "title": "The checkers accept what the sorters produce", "statement": "In any state in which SortSlice, SortLen or Sort has returned, a following IsSortedSlice, IsSortedLen or IsSorted (same NaNoption) returns 0.", "quantifier": "every input, schedule, MaxGor history and supported kind", "why_tests_cant": "joins two quantifications over all inputs", "anchors": ["sortySlice.go", "sortyLen.go", "sortyLsw.go"]}
{"id": "C23", "title": "Type dispatch accepts exactly the documented types", "statement": "On 32- and 64-bit platforms SortSlice/IsSortedSlice accept exactly slices of int, int32, int64, uint, uint32, uint64, uintptr, float32, float64, string, []byte, unsafe.Pointer, *T (underlying kinds) and treat each at its own width and signedness; SortLen/IsSortedLen accept exactly []string and [][]T; anything else panics before any element is touched.", "quantifier": "every Go type (reflect kind and element kind), both word sizes", "why_tests_cant": "the type space is infinite", "anchors": ["sorty.go:extractSK", "sortySlice.go", "sortyLen.go"]}
{"id": "C24", "title": "The sorted result does not depend on schedule, MaxGor, tuning or platform", "statement": "For integers, strings and byte slices the final contents are a function of the input only; for floats the sequence of values up to IEEE equality, for SortLen the sequence of lengths, and for Sort the sequence of equivalence classes, is a function of the input only.", "quantifier": "every pair of executions from the same input, with possibly different schedules, MaxGor histories, tuning parameters, word sizes and pivot averages", "why_tests_cant": "inputs of every length and content, goroutine interleavings and live MaxGor changes cannot be enumerated; a test run sees one schedule of one input", "anchors": ["sortySlice.go:SortSlice", "sortyLsw.go:Sort"]}
{"id": "C25", "title": "Live MaxGor changes and foreign activity are harmless", "statement": "Correctness, termination bound, absence of panics, deadlocks and races hold even if other goroutines change MaxGor arbitrarily and modify memory outside the slice arbitrarily at any time during the call; in particular any number of Sort* calls, beginning and ending at any time, do not disturb each other as long as no two that are in progress share elements; a slice may be sorted again as soon as the previous call has returned, although goroutines of that call may not have exited yet.", "quantifier": "every sequence of environment actions interleaved anywhere", "why_tests_cant": "interleavings with an arbitrary environment", "anchors": ["sorty.go:MaxGor", "sorty.go:gorFull", "tmain_test.go:TestConcurrent"]}
{"id": "C26", "title": "NaNignore", "statement": "With NaNoption = NaNignore (or any other value) SortSlice sorts NaN-free float slices correctly; with NaNs present the documentation promises only an undefined result; in fact, on a slice consisting of NaNs that is longer than MaxLenIns and is sorted in the caller's goroutine (shorter than 2*(MaxLenRec+1), or MaxGor at most 1), the call never returns.", "quantifier": "every NaN-free input; every all-NaN input of these lengths, every execution", "why_tests_cant": "divergence cannot be observed by a finite test", "anchors": ["sorty.go:NaNoption", "sortyF4.go:sortF4", "sortyF4.go:partOneF4"]}
{"id": "C27", "title": "Degenerate lengths", "statement": "Sort(n, lsw) with n <= 1, IsSorted(n, lsw) with n <= 1 and SortSlice/SortLen on empty or one-element slices call nothing, write nothing and return (IsSorted: 0), for every n except the smallest int, where n-1 wraps around and lesswap is called with an index outside the collection.", "quantifier": "every n <= 1 (every machine integer), 32- and 64-bit platforms", "why_tests_cant": "negative range is huge; the minimal integer is special", "anchors": ["sortyLsw.go:Sort", "sortyLsw.go:IsSorted"]}
{"id": "C28", "title": "Every tuning accepted by the package init check is correct", "statement": "For every MaxLenIns, MaxLenInsFC, MaxLenRec, MaxLenRecFC accepted by the package's init check (not only the shipped 60/30/600/300) and small enough for 2*(MaxLenRec+1) to be an int, all sorting guarantees hold; the shipped values pass the check. Larger values accepted by init make SortSlice panic.", "quantifier": "every parameter tuple accepted by init with MaxLenIns, MaxLenRec + 1 below half of the range of int (2^30, 2^62); existence of a failing larger tuple, on 32- and 64-bit platforms", "why_tests_cant": "tuples are unbounded (build tag tuneparam)", "anchors": ["sorty.go:init", "maxc.go", "maxv.go"]}
{"id": "C29", "title": "Stack use is logarithmic", "statement": "In every goroutine of a Sort* call the nesting depth of recursive sorting calls is at most log2(length)+constant, for every input (recursion is on the shorter range only).", "quantifier": "every input, every reachable state", "why_tests_cant": "worst-case depth is an all-inputs maximum", "anchors": ["sortyI4.go:shortI4", "sortyI4.go:longI4", "sortyLsw.go:short", "sortyLsw.go:long"]}
{"id": "C30", "title": "Pivot samples are spread optimally", "statement": "For every slice length slen >= 2n and n >= 2, the n sample positions used for pivot selection are equidistant, inside the slice, and minimise (over all equidistant choices) the maximum distance from an unselected element to the nearest sample; the specialised 4-sample computation agrees with the general one for every length from 8 below 2^32 (it is used for lengths up to MaxLenRec only; it truncates longer ones).", "quantifier": "every n >= 2 and slen >= 2n within machine range, 32- and 64-bit platforms; for the 4-sample computation every length from 8 below 2^32", "why_tests_cant": "TestMinMax checks lengths up to 1800 only", "anchors": ["sorty.go:minMaxSample", "sorty.go:minMaxFour"]}
{"id": "C31", "title": "Partition bookkeeping: each split is proper", "statement": "Each partition step leaves two non-empty parts, everything in the left part <= everything in the right part, contents permuted; hence progress on every input including constant and sorted slices.", "quantifier": "every input with any pivot lying between two elements", "why_tests_cant": "pivot/tie corner cases are unbounded", "anchors": ["sortyI4.go:partOneI4", "sortyI4.go:partConI4", "sortyLsw.go:partOne", "sortyLsw.go:partCon"]}
{"id": "C32", "title": "Short inputs are sorted stably", "statement": "SortSlice, SortLen and Sort on inputs not longer than MaxLenIns (MaxLenInsFC for strings, byte slices and Sort) keep the relative order of equal elements, provided float inputs are free of NaNs (with NaNs, +0 and -0 may be exchanged).", "quantifier": "every short input", "why_tests_cant": "contents are unbounded even for bounded length", "anchors": ["sortyI4.go:insertionI4", "sortyLsw.go:insertion", "sortyLenS.go:insertionLenS"]}
{"id": "C33", "title": "Sort survives a comparison that is not an order", "statement": "If the comparison given to Sort is merely irreflexive (x is never less than x; transitivity and asymmetry may fail), Sort still terminates within a quadratic bound, never panics or passes an index outside 0..n-1, has no data race, returns with all goroutines finished and leaves a permutation of the elements; the result is moreover sorted by every strict weak order the comparison is consistent with. With <= instead of <, both the order and the race freedom are lost.", "quantifier": "every irreflexive comparison function, collection, schedule and MaxGor history", "why_tests_cant": "comparisons that are not orders are outside the contract and not tested; schedules cannot be enumerated", "anchors": ["sortyLsw.go:Sort", "sortyLsw.go:partOne", "sortyLsw.go:partTwo", "sortyLsw.go:partCon"]}
{"id": "C34", "title": "Happens-before orders all accesses, including the caller's", "statement": "Under the Go memory model, all conflicting accesses to the elements are ordered by happens-before: those made by the goroutines of one call among each other, every access the caller made before calling (their writes are seen by all goroutines of the sort), and, once the call has returned, every access the caller makes afterwards (they see the sorted result without further synchronisation).", "quantifier": "every sort call, schedule, MaxGor history, and every sequence of caller's accesses before and after the call", "why_tests_cant": "the race detector judges single executions and is explicitly switched off for part of this code; visibility on weakly ordered hardware cannot be tested exhaustively", "anchors": ["sorty.go:gorFull", "sortyI4.go:gLongI4", "sortyI4.go:SortI4", "sortyLsw.go:Sort", "sortyLsw.go:partCon"]}
{"id": "C35", "title": "NaNs under NaNignore do no harm", "statement": "Whatever the option and whatever NaNs a float slice contains (so that comparisons answer inconsistently), SortSlice never panics, touches only elements of the slice, leaves all other memory alone, makes at most one channel, nests its calls at most log2(n)+2 deep in every goroutine, never deadlocks (it has returned or some goroutine can go on), has no data race, and if it returns, the slice is a permutation of what it was and no goroutine touches it any more. (It may run forever, C26.)", "quantifier": "every slice of any of the supported types, any contents, any NaNoption, every schedule and MaxGor history", "why_tests_cant": "the answers of the comparisons are adversarial; out-of-range indices or unbounded recursion could depend on any arrangement of NaNs; schedules are unbounded", "anchors": ["sorty.go:NaNoption", "sortyF4.go:sortF4", "sortyF4.go:partOneF4", "sortyF4.go:partTwoF4", "sortyF4.go:shortF4", "sortyF4.go:longF4", "sortyF4.go:insertionF4"]}
{"id": "C36", "title": "Sort only exchanges elements, at every moment", "statement": "While Sort(n, lsw) runs, whenever no goroutine is in the middle of an exchange the n elements are a permutation of the original ones; in particular if the caller's comparison panics in a call that uses one goroutine and the caller recovers, no element is lost or duplicated. At any moment whatever, only cells that some goroutine is just about to write are still to receive their element. (SortSlice makes no such promise: it holds elements in variables, and mid-sort the slice is not a permutation.)", "quantifier": "every comparison with not x < x, any size, every moment of every schedule and MaxGor history", "why_tests_cant": "intermediate states of all schedules cannot be observed; a test sees the final state only", "anchors": ["sortyLsw.go:Sort", "sortyLsw.go:insertion", "sortyLsw.go:partOne", "sortyLsw.go:partTwo", "sortyLsw.go:partCon", "sortyLsw.go:Lesswap"]}
{"id": "C37", "title": "The guarantees hold under the Go memory model", "statement": "If every read of an element may return the value of any write that happens-before does not rule out (instead of the last one in some global order), Sort*() still does exactly what it does under sequential consistency: it neither panics nor gets stuck nor runs longer, and every value the caller may see in the collection after the return belongs to the sorted result. With NaNs under NaNignore, which are not sorted, it still neither panics nor gets stuck, and what the caller sees after a return is a rearrangement of the elements.", "quantifier": "all inputs, all schedules, all choices of visible values, all changes of MaxGor", "why_tests_cant": "hardware and compiler reordering are not under the control of a test; strongly ordered machines hide them", "anchors": ["sortyI4.go:partConI4", "sortyI4.go:gLongI4", "sortyI4.go:sortI4", "sortyLsw.go:Sort", "sorty.go:gorFull"]}
{"id": "C38", "title": "Mid-sort, each goroutine keeps at most one element out, and none is invented", "statement": "At every moment of every SortSlice/SortLen/Sort call (also with NaNs, also if the call never returns), the collection is an arrangement of the original elements except for at most one cell per goroutine that is still working; goroutines that have finished or only wait account for none. Every cell holds one of the original values at all times, never anything else.", "quantifier": "all element types, contents, options, sizes, every moment of every schedule and MaxGor history; for Sort every comparison with not x < x", "why_tests_cant": "intermediate states of concurrent executions cannot be enumerated or observed by tests without disturbing them", "anchors": ["sortyI4.go:insertionI4", "sortyI4.go:partOneI4", "sortyI4.go:partTwoI4", "sortyI4.go:partConI4", "sortyF4.go:sortF4", "sortyLsw.go:Sort"]}
{"id": "C39", "title": "Assigning to NaNoption during a call", "statement": "SortSlice and IsSortedSlice on floats consult NaNoption up to twice per call. If it is assigned to meanwhile, with NaNlarge and NaNsmall only, the call sorts/checks for the value it saw first, and keeps all other guarantees, except when it sees NaNsmall and then NaNlarge: then NaNs are ignored, SortSlice on a slice of NaNs may never return and IsSortedSlice may deny that an ordered slice is ordered. Whatever values are assigned, NaN-free slices are sorted as ever, and no call panics, touches anything outside the slice, gets stuck or loses an element.", "quantifier": "all float types, contents, sizes, pairs of values read, schedules and MaxGor histories", "why_tests_cant": "the window between the two reads is a few instructions, and non-termination is not observable", "anchors": ["sortyF4.go:sortF4", "sortyF8.go:sortF8", "sortyF4.go:isSortedF4", "sortyF8.go:isSortedF8", "sorty.go:NaNoption"]}
{"id": "C40", "title": "Search finds the insertion point in what Sort* produced", "statement": "After SortSlice, SortLen or Sort has returned, Search(n, fn) with fn(k) asking about the element at k any question that is answered yes for everything at or above an element for which it is answered yes (such as a[k] >= x; NaNs taken as largest/smallest as NaNoption says) returns the number of original elements for which the answer is no; exactly the positions below it hold such elements.", "quantifier": "all element types, contents, options, comparison functions, questions, schedules, MaxGor histories and tunings", "why_tests_cant": "composition of two for-all statements: any contents, any schedule of the sorter, any upward closed question", "anchors": ["sorty.go:Search", "sortySlice.go:SortSlice", "sortyLen.go:SortLen", "sortyLsw.go:Sort"]}
{"id": "C41", "title": "At the level of bytes: calls on slices of different types in one memory", "statement": "Let memory be an array of bytes (little- or big-endian, 4- or 8-byte words) in which slices of numbers, pointers, strings and byte slices lie. SortSlice / SortLen views its argument as a slice of a hardware type; that view has the size of the declared Go element type for every documented type. Any number of such calls, on slices of any types, beginning and ending at any time, where no call in progress writes bytes that another one in progress sorts or refers to: each sorts its slice when the bytes are read as its type, moves elements as whole blocks of bytes (at every moment each block holds an original one), changes no byte of the strings the elements refer to, and never touches a byte that another call is about to touch; calls that have returned never touch memory again, so the same bytes can be sorted as another type right away.", "quantifier": "every byte memory, every byte order and word size, every set of calls and layouts, every interleaving", "why_tests_cant": "unsafe reinterpretation of memory and interleavings of calls of different types", "anchors": ["sorty.go:extractSK", "sortySlice.go:SortSlice", "sortyLen.go:SortLen"]}
{"id": "C42", "title": "Elements need not be read or written at once", "statement": "Go reads and writes at most one machine word at once; strings, slice headers, and 8-byte numbers on 32-bit platforms are several words. Suppose an element consists of any number of parts (words, or even single bytes), and that each read or write of an element by the code takes place part by part, in any order, interleaved with the other goroutines. Then the sorting calls do what they do with indivisible elements: no two goroutines are ever about to access the same part with one of them writing, no panic, no deadlock, a bound on the number of steps, nothing outside the collection is changed, on return the collection is sorted and a permutation and stays so; and no goroutine ever works with a mixture of two elements (what it has read is always an element of the original collection), although memory does hold such mixtures at times.", "quantifier": "every sorting call, every decomposition of elements into parts, every order of the accesses to parts and every interleaving", "why_tests_cant": "torn reads and writes depend on platform, compiler and timing", "anchors": ["sortyI4.go:sortI4", "sortyI8.go:sortI8", "sortyS.go:sortS", "sortyB.go:sortB", "sortyLenS.go:sortLenS", "sortyF8.go:sortF8", "sortyLsw.go:Sort"]}
{"id": "C43", "title": "Goroutines occupied, however outdated the counter", "statement": "The code decides by a plain, unsynchronized read of its goroutine counter whether to start another goroutine; if such reads return outdated values the quota of C14 does not hold. Whatever values they return, and whatever MaxGor is or becomes: at any moment the number of goroutines (the caller included) that still have elements to read, write or compare, or goroutines to start, is at most max(1, n / (MaxLenRec+1)) for a collection of n elements (MaxLenRecFC for Sort and for strings and byte slices), so a collection shorter than 2*(MaxLenRec+1) never occupies more than the caller. The bound is attained. For float slices with NaNs under NaNignore, which may never be done, the goroutines about to access an element number at most as many.", "quantifier": "every sorting call, every platform and tuning, every value MaxGor takes, every interleaving, every value the reads of the counter return", "why_tests_cant": "outdated reads and the interleavings that start most goroutines cannot be forced, and the bound is for every length and tuning", "anchors": ["sortyI4.go:sortI4", "sortyI4.go:longI4", "sortyI4.go:partConI4", "sorty.go:gorFull", "sorty.go:Sort", "sorty.go:MaxLenRec", "sorty.go:MaxLenRecFC"]}
{"id": "C44", "title": "A sorted collection is left alone", "statement": "Called on a collection that is already in order (with NaNs where the option puts them; equal elements in any arrangement), a sorting call writes to no element at any moment, in any goroutine: for Sort, lesswap is never given a pair that it would swap. So equal elements keep their places, goroutines that only read the collection do not race with the call, and any number of sorting calls may work on overlapping sorted collections at once without races, each as if alone. With MaxLenRec below 2^32 all goroutines together take at most 500*n*(log2 n + 1) + 6*n + 20 steps, not a quadratic number. What a call has sorted is such a collection, so sorting again changes nothing.", "quantifier": "every sorted collection of every element type and length, every strict weak ordering and consistent lesswap, every tuning, every platform whose mean of two indices rounds to a neighbour, every value MaxGor takes, every interleaving, any number of overlapping calls", "why_tests_cant": "absence of writes holds for every length, arrangement of equal elements and interleaving; a stray swap of equal numbers is invisible in the result of a test, and two racing goroutines that write back the same value show only under the race detector on the right schedule", "anchors": ["sortyI4.go:insertionI4", "sortyI4.go:pivotI4", "sortyI4.go:partOneI4", "sortyI4.go:partTwoI4", "sortyI4.go:partConI4", "sortyI4.go:sortI4", "sortyLsw.go:insertion", "sortyLsw.go:pivot", "sortyLsw.go:partOne", "sortyLsw.go:partTwo", "sorty.go:minMaxSample", "sorty.go:minMaxFour", "sortyF4.go:nanToStart"]}
{"id": "C45", "title": "The worst case is quadratic", "statement": "For every element type and every length n of at least MaxLenRec + 48 there is a slice of that length (NaN-free; made of any n different values) for which SortSlice or SortLen with MaxGor <= 1 takes more than (n - MaxLenRec - 48)^2 / 8 steps in every run. For Sort and every n of at least MaxLenRecFC + 48, whatever the different elements of the collection are, there are keys for which the call with a Lesswap that compares the keys takes more than (n - MaxLenRecFC - 48)^2 / 10 steps. So the quadratic bound of C09 is the true order of the worst case, and whoever controls the input can make the call take quadratic time: a million strings can cost more than 10^11 steps with the parameters shipped.", "quantifier": "every platform, tuning, element type, NaN option, length up to 2^30 (4-byte types) or 2^62, every family of different values; for Sort every collection of different elements; every run of the call", "why_tests_cant": "a test with the usual random or ordered inputs never meets the arrangement; that one exists for every length and tuning, and for each type, is a statement about all of them", "anchors": ["sorty.go:minMaxSample", "sortyI4.go:pivotI4", "sortyI4.go:partOneI4", "sortyI4.go:longI4", "sortyI4.go:sortI4", "sortyS.go:longS", "sortyLenS.go:longLenS", "sortyLsw.go:pivot", "sortyLsw.go:partOne", "sortyLsw.go:long", "sortyLsw.go:Sort"]}
{"id": "C46", "title": "Large collections are shared with goroutines, small ones are not", "statement": "If MaxGor is at least 2 throughout a call of SortSlice, SortLen or Sort and the collection has at least 2*(MaxLenRec+1) elements (MaxLenRecFC for strings, byte slices and Sort), the call has started a goroutine, and made exactly one channel, by the time it returns. For floats with NaNlarge or NaNsmall only the elements that are not NaN count, exactly: with fewer of them than the limit no goroutine is ever started and no channel made, whatever MaxGor and however many NaNs. Together with C13: when work is shared is determined by MaxGor and the number of elements that are not NaN.", "quantifier": "every platform, tuning, element type, NaN option, contents, length, schedule, outdated counter reads, MaxGor changing within [2,M]", "why_tests_cant": "whether goroutines are used does not show in the result; the claim is about every input above the limit and every schedule", "anchors": ["sortyI4.go:sortI4", "sortyI4.go:partConI4", "sortyF4.go:sortF4", "sortyS.go:sortS", "sortyLsw.go:Sort", "sortyLsw.go:partCon", "sorty.go:gorFull"]}
{"id": "C47", "title": "Elements that compare equal: how many results a call can have", "statement": "SortSlice, SortLen and Sort are not stable, and the order in which elements that compare equal (records with the same key, strings of the same length, +0 and -0) end up may differ from run to run on the same input. But it cannot differ arbitrarily: over all values and changes of MaxGor and all schedules, one input has at most n - 2*MaxLenRec different results (MaxLenRecFC for strings, byte slices and Sort), and at least one. If MaxGor is at most 1, or the collection has fewer than 2*(MaxLenRec+1) elements, the result is a function of the input. Otherwise it is not: already with MaxGor constantly 2 and nobody else touching memory two schedules give different results for one input.", "quantifier": "every platform, tuning, element type, NaN option, contents, length, order, schedule, outdated counter reads, MaxGor changing at any time", "why_tests_cant": "the number of possible results is a statement about all schedules of one input at once; a test sees one result at a time and whichever schedule it gets", "anchors": ["sortyI4.go:sortI4", "sortyI4.go:partConI4", "sortyI4.go:gPartOneI4", "sortyI4.go:SortI4", "sortyF4.go:sortF4", "sortyS.go:sortS", "sortyLsw.go:Sort", "sortyLsw.go:partCon", "sorty.go:gorFull"]}
{"id": "C48", "title": "Sort with any Lesswap whatever", "statement": "Whatever Lesswap does - its answers contradict each other, follow no order, are random or depend on time, it exchanges other elements than asked or none, or other goroutines change the elements meanwhile - Sort(n, Lesswap) never panics, calls Lesswap only with indices in [0,n), never deadlocks, returns after at most about 100*n*n steps, with every goroutine it started past its last access, no call nested deeper than log2(n)+2, at most one channel, no goroutine at all for fewer than 2*(MaxLenRecFC+1) elements, and never more than n/(MaxLenRecFC+1) goroutines sorting at once. Only the order of the result and the absence of races depend on Lesswap being a strict order.", "quantifier": "every platform, tuning, n (up to 10/11 of the largest int), sequence of answers, contents changing at any time, schedule, outdated counter reads, MaxGor changing at any time", "why_tests_cant": "the behaviours of an arbitrary Lesswap are all sequences of answers; tests try a few comparisons, and random answers hardly ever lead to the paths on which an index leaves its range", "anchors": ["sortyLsw.go:Sort", "sortyLsw.go:partOne", "sortyLsw.go:partTwo", "sortyLsw.go:gPartOne", "sortyLsw.go:partCon", "sortyLsw.go:insertion", "sortyLsw.go:pivot", "sortyLsw.go:short", "sortyLsw.go:gLong", "sortyLsw.go:long"]}
{"id": "C49", "title": "SortSlice and SortLen while others change the elements", "statement": "If other goroutines write to the elements of the slice while SortSlice or SortLen sorts it, any values at any time, the call still never panics, reads and writes only elements of the slice, never deadlocks, and when it returns nobody it started touches the slice any more; no call is nested deeper than log2(length)+2, at most one channel is made, no goroutine is started for fewer than 2*(MaxLenRec+1) elements (MaxLenRecFC for strings and byte slices), and never more than length/(MaxLenRec+1) goroutines are at work on elements at once. But, unlike Sort with a Lesswap, it need not return: for every slice of more than MaxLenIns (MaxLenInsFC) elements of every element type there are writes that keep it running for ever.", "quantifier": "every platform, tuning, NaN option, element type, slice, contents changing at any time, schedule, outdated counter reads, MaxGor changing at any time", "why_tests_cant": "all interleavings of all writes of others with the sorters; a partition function that relied on having seen an element as a sentinel would leave its range only under particular writes at particular moments", "anchors": ["sortyI4.go:partOneI4", "sortyI4.go:partTwoI4", "sortyI4.go:partConI4", "sortyI4.go:shortI4", "sortyI4.go:longI4", "sortyI4.go:sortI4", "sortyF4.go:sortF4", "sortyS.go:shortS", "sortyB.go:longB", "sortyLenS.go:sortLenS", "sortyLenB.go:sortLenB", "sorty.go:SortSlice", "sorty.go:SortLen"]}
{"id": "C50", "title": "A Lesswap that panics and is recovered", "statement": "If the caller's Lesswap panics in the goroutine that called Sort, before it has exchanged anything in that call, and the caller recovers the panic, then the goroutines Sort has started go on: they never panic on their own account, never race with each other, access only elements 0..n-1, and stop after a bounded number of steps, all of them having ended but for at most one, which waits for ever to hand over its result; then, and at every earlier moment at which nobody is about to write, the collection holds exactly the elements Sort was called with. With MaxGor at most 1 or fewer than 2*(MaxLenRecFC+1) elements no goroutine is left. Otherwise, after the panic has been recovered, some may still be exchanging elements, and there are runs in which one of them is leaked.", "quantifier": "every platform, tuning, collection, irreflexive comparison, schedule, moment of the panic, outdated counter reads, MaxGor changing at any time", "why_tests_cant": "all moments of the panic in all interleavings; what the abandoned goroutines do afterwards is not observed by the call that failed", "anchors": ["sortyLsw.go:Sort", "sortyLsw.go:partCon", "sortyLsw.go:gPartOne", "sortyLsw.go:gLong", "sortyLsw.go:long", "sorty.go:gorFull"]}
{"id": "C51", "title": "The checkers while others change the elements", "statement": "If other goroutines write to the elements while IsSorted, IsSortedSlice or IsSortedLen runs, any values at any time, the call never panics, writes nothing, reads only elements of the collection, starts nothing and returns after a number of steps linear in the length. Its result reports what it found: for a result r > 0, elements r-1 and r had, each at some moment during the call, values that are out of order; for every larger index (every index, for 0), elements i-1 and i had, each at some moment during the call, values in order (or, for floats, one of them was a NaN where NaNoption wants NaNs). It is not a snapshot: there are runs that return 0 although the collection is not sorted at any moment.", "quantifier": "every platform, NaN option, element type or comparison (no assumption on it), slice, contents changing at any time", "why_tests_cant": "all interleavings of all writes of others with the reads of the checker", "anchors": ["sortyLsw.go:IsSorted", "sortySlice.go:IsSortedSlice", "sortyLen.go:IsSortedLen", "sortyI4.go:isSortedI4", "sortyF4.go:isSortedF4", "sortyS.go:isSortedS", "sortyB.go:isSortedB", "sortyLenS.go:isSortedLenS", "sortyLenB.go:isSortedLenB"]}
{"id": "C52", "title": "Elements in parts under the Go memory model", "statement": "The guarantees do not depend on elements being accessed at once nor on memory being sequentially consistent: if each access to an element is a number of accesses to its parts (machine words, bytes, ...), in any order and interleaved with anything, and each read of a part returns any value that the Go memory model lets it see, then a sorting call still has no data race, does not panic, returns after a bounded number of steps, a goroutine that has read all parts of an element holds one of the original elements, and when the call returns, whatever the caller then reads from the memory (any value visible to it) is the sorted collection.", "quantifier": "every sorting call meeting its documented preconditions (any element type, platform, tuning, MaxGor changing), every way of splitting elements into parts, every execution the memory model admits; bytes in either byte order", "why_tests_cant": "tests see only the reorderings of one machine, on which words are written at once; the memory model allows far more", "anchors": ["sortySlice.go:SortSlice", "sortyLen.go:SortLen", "sortyLsw.go:Sort", "sortyI8.go:sortI8", "sortyS.go:sortS", "sortyB.go:sortB", "sorty.go:syncVar"]}
{"id": "C53", "title": "No values out of thin air", "statement": "Whatever values the reads of elements in SortSlice and SortLen return, the call has no data race, neither among its goroutines nor with what the caller does before and after it. Sort(n, lsw) has none in any execution whose reads the Go memory model can explain. Hence, for all of these calls, even if a read may return the value of any write of the whole execution that the Go memory model does not rule out for it (also of one done later, or done only because of that read), every read returns what was last written: the call does not panic, does not deadlock, returns after a bounded number of steps, does not run forever on reads explained arbitrarily late, and everything the caller then reads is sorted.", "quantifier": "every slice, option and comparison the calls support (race freedom: any contents at any time, any irreflexive comparison), every platform, tuning, changing MaxGor, every execution whose reads the memory model explains by the execution as a whole", "why_tests_cant": "no machine that tests run on returns values before they are written; the claim is about all executions the memory model's rules admit, including cyclic explanations", "anchors": ["sortySlice.go:SortSlice", "sortyLen.go:SortLen", "sortyI8.go:sortI8", "sortyI8.go:partConI8", "sortyS.go:sortS", "sortyLenS.go:sortLenS", "sorty.go:gorFull", "sorty.go:syncVar", "sortyLsw.go:partOne", "sortyLsw.go:partTwo", "sortyLsw.go:partCon", "sortyLsw.go:Sort"]}
{"id": "C54", "title": "The garbage collector sees all elements, except pointers", "statement": "Objects that elements refer to must not be freed while a slice is sorted. Let a concurrent garbage collector with Go's write barrier start marking at any moment of a call, scanning elements and goroutine stacks in any order while the call runs. When it has finished, all elements the call was given, and whatever is in their places from then on, have been marked, for SortSlice on strings and byte slices, SortLen, and Sort, if the caller's Lesswap exchanges elements in the usual way. For SortSlice on slices of pointers this is false: they are handled as integers, without barrier, and so a pointer can be missed although it is in the slice before and after; at moments it is in integer variables only. (On slices in order already nothing is missed.)", "quantifier": "every call, platform, tuning, changing MaxGor, schedule, moment at which marking begins, order of scanning elements and stacks interleaved with the sort; the exception by a witness", "why_tests_cant": "a lost object needs the collector to scan two elements just before and after they are exchanged, and shows only when freed memory is reused; the claim is about all interleavings", "anchors": ["sortySlice.go:SortSlice", "sorty.go:extractSK", "sortyU8.go:insertionU8", "sortyU8.go:sortU8", "sortyU4.go:sortU4", "sortyS.go:sortS", "sortyB.go:sortB", "sortyLen.go:SortLen", "sortyLsw.go:Sort"]}
{"id": "C55", "title": "A Lesswap that does not return", "statement": "If calls of Lesswap block for ever or end their goroutines (runtime.Goexit, as testing's FailNow does), in any goroutines of a Sort, at any moments, then Sort does not return any more, that is, it never returns with work left undone. The other goroutines stay within the collection, do not race, do not panic, and after a limited number of steps have all ended or wait for each other. No element is lost but those that the stopped goroutines were about to store. (In particular, when a goroutine that Sort started ends in Lesswap, the caller waits for it for ever.)", "quantifier": "every call of Sort, SortSlice or SortLen, every platform, tuning, changing MaxGor and schedule, every set of goroutines stopped at any moments at which they access elements", "why_tests_cant": "that something never returns, for all schedules and moments of stopping, cannot be observed", "anchors": ["sortyLsw.go:Sort", "sortyLsw.go:gLong", "sortyLsw.go:gPartOne", "sortyLsw.go:partCon", "sortyLsw.go:Lesswap"]}
{"id": "C56", "title": "Goroutines used by a call in all", "statement": "Over a whole call, not only at any one moment, at most Len/(MaxLenRec+1) goroutines, the caller included, work on parts of the collection (Len/(MaxLenRecFC+1) for Sort and for strings and byte slices), and the goroutine counter is updated at most twice that number minus one times, never for a collection shorter than that; whatever MaxGor is. So sorting creates at most that many goroutines, however long it runs, besides the helpers of concurrent partitioning, which never count.", "quantifier": "every call of Sort, SortSlice or SortLen, every platform, tuning, initial contents, changing MaxGor, schedule, delayed values of the counter, every execution prefix", "why_tests_cant": "bounds on what happens over all schedules; counter updates are not observable from outside", "anchors": ["sortyU8.go:gLongU8", "sortyU8.go:longU8", "sortyU8.go:sortU8", "sortyLsw.go:gLong", "sortyLsw.go:Sort", "sorty.go:MaxLenRec"]}
{"id": "C57", "title": "Sort sees elements only through comparisons", "statement": "If two collections compare alike position by position, then everything that can happen while Sort sorts the one can happen while it sorts the other: the same accesses to the same positions in the same order, the same goroutines started, the same synchronisation, a return at the same point; and at every moment both hold their elements in the same arrangement. So which positions Sort touches, how many goroutines it uses and how long it takes reveals nothing about the elements but how they compare; data carried along with a key moves with the key exactly as the key alone would.", "quantifier": "every two element types, comparisons and collections of any equal length that compare alike (irreflexively among the elements present), platform, tuning, changing MaxGor, schedule, execution prefix", "why_tests_cant": "relates all executions on two inputs; a test sees single executions, and schedules cannot be replayed on another input", "anchors": ["sortyLsw.go:Sort", "sortyLsw.go:long", "sortyLsw.go:short", "sortyLsw.go:partOne", "sortyLsw.go:partTwo", "sortyLsw.go:pivot", "sortyLsw.go:insertion"]}
{"id": "C58", "title": "Sort needs an order only among the elements present", "statement": "Sort works as documented (no panic, no data race, no access outside the first n positions, termination, a permutation, sorted result) if the comparison is a strict weak order among the elements of the collection; values that do not occur in it may compare in any way, even as less than themselves. For instance floats may be compared by < if there is no NaN among them.", "quantifier": "every element type, comparison and collection that it weakly orders, n <= capacity with 11n+18 < 10*2^(8*wordsize-1), platform, tuning, changing MaxGor, schedule", "why_tests_cant": "all executions, all comparisons, whose behaviour elsewhere is arbitrary", "anchors": ["sortyLsw.go:Sort", "sortyLsw.go:insertion", "sortyLsw.go:long", "sorty.go:Lesswap"]}
{"id": "C59", "title": "SortSlice sees only the contents of strings and byte slices, SortLen only lengths", "statement": "If two slices of strings or byte slices have equal contents position by position, then everything that can happen while SortSlice sorts the one can happen while it sorts the other, with the same accesses, goroutines and synchronisation, and both are arranged alike at every moment; also if the one holds strings and the other byte slices. The same holds for SortLen and slices of strings or slices of slices with equal lengths. Where the data is stored, capacities and, for SortLen, contents and element types make no difference.", "quantifier": "every two such slices of any length, platform, tuning, changing MaxGor, schedule, execution prefix", "why_tests_cant": "relates all executions on two inputs of different types; schedules cannot be replayed", "anchors": ["sortyS.go:sortS", "sortyB.go:sortB", "sortyLenS.go:sortLenS", "sortyLenB.go:sortLenB", "sortySlice.go:SortSlice", "sortyLen.go:SortLen"]}
{"id": "C60", "title": "Sort looks at every element", "statement": "Sort(n, lsw) with n >= 2 does not return before every position 0..n-1 has been an argument of a Lesswap call that looked at the element there, whatever the collection and whatever irreflexive comparison, even if all elements are equal or already in order, and however the work is divided among goroutines.", "quantifier": "every element type, comparison irreflexive on the elements, collection, n >= 2 below the limit, platform, tuning, changing MaxGor, schedule", "why_tests_cant": "all inputs and schedules; a missed position shows only if the element there is out of place", "anchors": ["sortyLsw.go:Sort", "sortyLsw.go:insertion", "sortyLsw.go:partOne", "sortyLsw.go:partCon"]}
{"id": "C61", "title": "SortSlice sees floats, strings and byte slices only through their order", "statement": "If two slices of floats (float32 or float64 each) hold NaN at the same positions and their other elements compare alike, position by position, then everything that can happen while SortSlice sorts the one can happen while it sorts the other, with the same accesses, goroutines and synchronisation, and corresponding elements are at corresponding places at every moment, for every NaNoption. The same holds for two slices of strings or byte slices that compare alike. Values, precision, NaN payloads and contents otherwise make no difference.", "quantifier": "every two such slices of any length, platform, tuning, NaNoption, changing MaxGor, schedule, execution prefix", "why_tests_cant": "relates all executions on two inputs of different types; schedules cannot be replayed", "anchors": ["sortyF4.go:sortF4", "sortyF8.go:sortF8", "sortyS.go:sortS", "sortyB.go:sortB", "sortySlice.go:SortSlice"]}
{"id": "C62", "title": "SortSlice and SortLen see only the values of integers and lengths", "statement": "If two slices hold integers of any of the types int32, int64, uint32, uint64 (each its own) with equal values position by position, then everything that can happen while SortSlice sorts the one can happen while it sorts the other, with the same accesses, goroutines and synchronisation, and corresponding elements are at corresponding places at every moment. SortLen on strings or slices does the same as SortSlice on integers equal to their lengths. The width and signedness of the type make no difference, if sixb's mean functions for the types agree on common values.", "quantifier": "every two such slices of any length, platform, tuning, changing MaxGor, schedule, execution prefix", "why_tests_cant": "relates all executions on two inputs of different types; schedules cannot be replayed", "anchors": ["sortyI4.go:sortI4", "sortyI8.go:sortI8", "sortyU4.go:sortU4", "sortyU8.go:sortU8", "sortyLenS.go:sortLenS", "sortyLenB.go:sortLenB"]}
