# Formal model of jfcg/sorty in Rocq (Coq 8.16.1)

## 1. Shape of the model

The Go code is modelled as *programs* of a small imperative language embedded in
Gallina (`Lang.v`): reads and writes of shared array cells, `goto`-style loops,
calls of recursive procedures, `go` statements, atomic counter operations, reads of
the live variable `MaxGor`, creation of the channel, unbuffered send / receive, panic.
Go local variables are Gallina values; labels/gotos are the state of a `Loop`.
There is no fuel in the model: loops and recursion are unrestricted.

A *machine state* is: caller goroutine, list of spawned goroutines, memory
(`Z -> T`), goroutine counter (`nGor`, uint64 with explicit wrap), `MaxGor`, number of
channels created. One step executes one memory access / synchronisation operation /
internal step of one goroutine, or one rendezvous on the channel. Between any two
program steps the environment may set `MaxGor` to any value in `[0,M]` and change any
memory cell outside the slice. All theorems quantify over every such interleaving.

Proof method: a total-correctness program logic with ownership of cells, a protocol for
counter + channel, step credits and a call-depth bound (`SeqLogic.v`, `ConcLogic.v`),
its soundness with respect to the interleaving machine (`Soundness.v`, `Adequacy.v`,
`SeqAdequacy.v`), and proofs of the functions in that logic.

| file | contents |
|------|----------|
| `Lang.v` | language, machine, observations (returned, panicked, race, ...) |
| `Scalar.v` | wrap-around, `minMaxSample`, `minMaxFour`, `Search` (sorty.go) |
| `Typed.v` | the code shared by the ten `sortyXX.go` files, as one generic program |
| `Kinds.v` | the ten element types, float-only code, reflect dispatch, init check |
| `Lsw.v` | sortyLsw.go |
| `Calls.v` | API calls as objects; reachable states; two calls at once |
| `Trace.v` | events, happens-before, data races of the Go memory model |
| `Weak.v`, `WeakFacts.v` | the machine with the reads of the Go memory model; DRF theorem |
| `TornWeak.v`, `TornWeakFacts.v`, `TornWeakTop.v` | the same for elements accessed part by part |
| `Thin.v`, `ThinTyped.v`, `ThinLsw.v` | the same with reads that may see writes yet to come |
| `Collect.v`, `CollectTop.v` | a garbage collector marking elements meanwhile |
| `Vanish.v` | goroutines that stop in Lesswap for ever |
| `Tally.v`, `TallyTop.v` | goroutines and counter updates over a whole execution |
| `Alike.v`, `AlikeTop.v`, `AlikeTyped.v`, `AlikeEx.v` | simulation between collections that compare alike, or look alike |
| `Looks.v` | every position is read |
| `Cross.v`, `CrossEx.v` | the simulation of `Alike.v` between programs over different types of keys; instances of `Typed.v` that compare alike (C61, C62) |
| `Values.v` | for integers the order is not enough: calls with one goroutine have one trace, and two of them that differ (C61) |
| `Veil.v`, `VeilAdequacy.v`, `VeilTyped.v` | logic for programs whose reads return anything; its soundness; SortSlice/SortLen in it |
| `Sly.v`, `SlyAdequacy.v`, `SlyLsw.v` | the same where the reads of some goroutines are right; its soundness; Sort in it |
| `SafeLogic.v`, `HappensBefore.v`, `SafeAdequacy.v`, `TraceFacts.v` | step-indexed safety logic; ownership implies happens-before |
| `Spec.v` | specification vocabulary, independent of the code model |
| `SeqLogic.v` … `SeqAdequacy.v` | program logics and their soundness |
| `SeqOps.v` … `LswSort.v` | proofs of the functions |
| `Calm.v`, `CalmLong.v`, `CalmSort.v`, `CalmLsw.v`, `CalmApi.v` | proofs of the functions on sorted ranges, without writes |
| `Guarantee.v`, `Unique.v`, `TypedFacts.v`, `LswFacts.v`, `ConcSplit.v`, `TopFacts.v`, `SearchFacts.v`, `ScalarFacts.v`, `TypedCheck.v`, `Forever.v`, `Swaps.v`, `Holes.v`, `Live.v`, `Lookup.v`, `Limit.v`, `Many.v`, `Bytes.v`, `BytesFacts.v`, `Torn.v`, `TornFacts.v`, `TornTop.v`, `CalmTop.v`, `Shared.v`, `Results.v`, `WeakAny.v`, `Erase.v`, `Blind.v`, `Oracle.v`, `BlindTyped.v`, `OracleTyped.v`, `Endless.v`, `Abandon.v`, `Watch.v` | from the logic to statements about reachable states |
| `Slow.v`, `SlowTyped.v`, `SlowTop.v`, `SlowLsw.v` | lower bounds on steps, slices and orders that take quadratic time |
| `Witness.v`, `Refute.v`, `Examples.v`, `BytesEx.v`, `TornEx.v`, `TornWeakEx.v`, `Spread.v`, `CalmEx.v`, `SlowEx.v`, `ResultsEx.v`, `OracleEx.v`, `OracleTypedEx.v`, `AbandonEx.v`, `WatchEx.v`, `ThinEx.v`, `ThinRace.v`, `CollectEx.v`, `VanishEx.v` | executions: counterexamples and non-trivial instances |
| `Properties.v` | the property theorems, nothing else |

## 2. Property -> model -> method

| id | modelled by | method |
|----|-------------|--------|
| C01 | generic typed code, integer instances | logic + soundness |
| C02, C03 | same, float instances (bit patterns, IEEE comparison of `Coq.Floats.SpecFloat`) + NaN pre-pass | logic + soundness |
| C04 | same, list-of-bytes instance | logic + soundness |
| C05 | same, key = length | logic + soundness |
| C06 | Lesswap code | logic + soundness |
| C07, C08, C10, C11, C12, C15 | reachable machine states | global invariant of the machine |
| C09 | step credits | soundness: credits bound the number of program steps |
| C13 | machine state (thread list, channel counter) | invariant |
| C14 | count of goroutines able to touch elements | the documented bound is refuted by an execution; the true bound 2*(MaxGor-1) is an invariant |
| C16, C17 | `Search` with a trace of calls | induction |
| C18-C21 | checker programs | logic, read-only ownership |
| C22 | sorter theorem composed with checker theorem | corollary |
| C23 | `extractSK` + dispatch over reflect kinds, down to the program that is run | case analysis over all kinds |
| C24 | uniqueness of sorted permutations | corollary of C01-C06 |
| C25 | environment steps of the machine | part of every theorem; plus compositions of two calls and of any number of calls that begin and end at any time |
| C26 | float instance with NaNignore | logic; divergence by an invariant of the machine |
| C27 | `Sort`/`IsSorted` with wrapped n-1 | logic; minimal-integer counterexample by execution |
| C28 | parameters are variables constrained by the init check | all theorems are parametric |
| C29 | call-frame depth of a goroutine | invariant in the logic |
| C30 | `minMaxSample`, `minMaxFour` with wrap-around | arithmetic |
| C31 | partition functions | logic |
| C32 | insertion sort | logic |
| C33 | Lesswap code with an arbitrary irreflexive comparison | same proofs as C06, parametric in comparison and order |
| C34 | traces of executions, happens-before (`Trace.v`) | ownership of a cell implies knowledge of its earlier accesses (`HappensBefore.v`) |
| C35 | the ten sorters with no law of the comparison assumed (`AnySeq.v`, `AnySort.v`, `AnyFacts.v`) | step-indexed safety logic, which does not ask for termination |
| C36 | Lesswap code at intermediate states (`Swaps.v`) | writes come in exchanging pairs; with race freedom, an invariant over memory with the pending writes done |
| C37 | machine whose reads return any visible write (`Weak.v`) | race freedom (C34) leaves one visible write, so the executions are those of the sequentially consistent machine; with NaNs the same from C35 (`WeakAny.v`) |
| C38 | all sorters at intermediate states (`Holes.v`) | step-indexed check that a goroutine overwrites only what it has read since it last synchronised and moves its gap; race freedom (C34, C35) keeps its knowledge valid; invariant with a ghost arrangement |
| C39 | the two reads of NaNoption as separate values (`sortLive`, `checkLive` in Kinds.v) | the call equals one with a single option value, which is computed; then C02, C03, C20, C26, C35 |
| C40 | `search` on the final memory of a sort call (`Lookup.v`) | composition of C01-C06 with C16; counting |
| C41 | `Bytes.v`: layout of the ten element types in byte memory, `bworld` | simulation: what a step wrote is what memory then holds (from C38: every value is an original one); invariants as for C25 |
| C42 | `Torn.v`: the machine of `Lang.v` with accesses part by part | `TornFacts.v`: forward simulation into the machine with indivisible elements, whose race freedom (C11) keeps the parts of one access together; and conversely every execution with indivisible elements can take place in parts |
| C43 | `busy` goroutines of `Calls.v`, executions with outdated reads (`reach`) | the logic's rules for starting goroutines ask for ranges of more than MaxLenRec elements on both sides (`many`, `twice` in `ConcLogic.v`); `counter_share` in `Soundness.v`: disjoint ranges, so the goroutines at work times MaxLenRec+1 is at most n; `Spread.v`: an execution attaining the bound |
| C44 | `sortedCall`, `crowd` in `CalmTop.v` | second proof of all functions (`Calm*.v`) in the program logic with writes forbidden (`frozen` in `ConcLogic.v`): ranges that start sorted; the pivot lies in the middle of the samples, so both parts of a range have at least a third of it (with MaxLenRec below 2^32) and the step credits `cCalm` suffice; `crowd`: induction as for C25, read-only calls may overlap |
| C45 | `typedCall` with MaxGor in 0..1, `reach`, `returned` | `Slow*.v`: longX samples 5 or 6 elements at positions that depend on the length only; an arrangement with all samples but two equal to the smallest value makes partOne cut off 3 or 4 elements; induction on the length, the arrangement is permuted back through the swaps partOne does (`sigma`, `tau`); `must`: every run under interference takes that many steps Sort (`SlowLsw.v`): the keys are chosen while the call runs; each round fixes those of the five samples, above all fixed so far and below the rest; `fixed`: the round then goes the same way whatever the other keys, and they all land in the same part, so the next round starts with at most five fewer open keys |
| C46 | `kept` (MaxGor never below m), `recLimit` | `Shared.v`: step-indexed predicate `sure` (a return without fork and channel is impossible while MaxGor >= 2), closed under Bind and Loop, hence proved without looking into pivot selection; the prepass by the sequential logic, counting non-NaNs by `plain`; below the limit the whole program is in the sequential logic |
| C47 | `outcome`, `apart`, `undisturbed` | `Yields.v`: every sequential command has exactly one outcome (`yields`), so a triple of the sequential logic can be strengthened to that outcome (`swp_exactly`); the concurrent proof is repeated with postconditions naming the outcome of every part, which depends only on the input and on how many rounds the caller made with a partner (`progOut`, `lmainOut`; `call_exactly`); pigeonhole (`Results.v`). Refutation: two schedulers run by `vm_compute` (`ResultsEx.v`) |
| C48 | `disturbed`: as `reach`, elements may change arbitrarily between any two steps | `Erase.v`: programs with the values of all elements erased (every read returns an unknown value) and a simulation from `disturbed` runs into runs of the erased program in which the memory is not used; `Blind.v`: the concurrent proof repeated for the erased program, with no assumption on the comparison, the loop bounds alone giving ranges and step counts; `Oracle.v`: transfer through the adequacy theorems of `Adequacy.v`. That MaxGor <= 1 means no goroutine (C13) is not covered by this route |
| C49 | `disturbed` as for C48, on `typedCall` | `BlindTyped.v`: the erased (Erase.v) programs of the ten sorters in a logic that knows nothing of the values; ranges follow from the bounds tests alone; `OracleTyped.v`: transfer through the simulation and `SafeAdequacy.v`; `Endless.v`: an existential logic in which the environment chooses each value read: pivot from large values, then only small ones, makes the left part the whole slice again and again |
| C50 | `abandoned`: an execution of the call, the caller's goroutine replaced by one that has ended, further steps of the others | `Abandon.v`: the same execution with the caller merely not scheduled is one of the call, so safety and step bound carry over; new: case analysis of the invariant shows that without the caller only the helper of partCon can get stuck (sending), at most one; runs in `AbandonEx.v` |
| C51 | `watched`: executions with the list of all states passed, elements may change between any two steps; `hadAt`, `met`, `fine` | `Watch.v`: a logic for code that only reads (`hwp`), every read returning an arbitrary value that is recorded; adequacy: every recorded value was in its cell at some moment; loops of the checkers by the invariant that the pairs passed are recorded. Runs that are never sorted but found sorted: `WatchEx.v` |
| C52 | `TornWeak.v`: the machine of `Torn.v` labelled with events, part q of element x being location x*np+q; reads of parts return any value `visible` there (`Weak.v`) | `TornWeakFacts.v`: the trace of parts is linked to a trace of the machine with indivisible elements (`linked`: every part event is covered by an event of its element, or by the access under way, happens-before being preserved), so that part accesses that conflict are ordered; hence the last write is the only visible one. `TornWeakTop.v`; examples and a program for which parts do get mixed: `TornWeakEx.v` |
| C53 | `Thin.v`: the machine of `Weak.v`, but reads return anything (`guess`) and the complete execution must explain them (`explained`), by a write before or after | `Veil.v`, `VeilAdequacy.v`: a logic in which reads return anything and elements have no content; `VeilTyped.v`: SortSlice/SortLen keep the ownership discipline, hence no data race whatever is read (`ThinTyped.v`: `typed_unracing`). Then, along the execution, the only write that can explain a read is the last one (`explained_honest`), so that it is an execution of the sequentially consistent machine. Sort is not race-free whatever is read (partOne may compare the pivot with itself and swap it if the two reads disagree: `ThinRace.v`), so two rounds: `Sly.v`, `SlyAdequacy.v`, `SlyLsw.v` prove by one logic that with arbitrary reads only the caller's reads can race (`lax`), and that with arbitrary reads of the caller only nothing races; `ThinLsw.v` puts them together. Needs `nearMean` (sixb.MeanI rounds to a neighbour). Examples: `ThinEx.v` |
| C54 | `Collect.v`: marking by a concurrent collector (cells and stacks scanned one at a time, Go's hybrid write barrier) beside the machine of `Lang.v`; what is on a stack: values the goroutine's remaining code may store without reading them | weak tricolour invariant (`marking_inv`): what is in a scanned cell or on a scanned stack is marked, or in a cell yet to be scanned; `CollectTop.v`: with C07 (accesses stay within the elements) and C09 (some continuation returns), for all calls; the missed pointer: `CollectEx.v` |
| C55 | `Vanish.v`: executions in which some goroutines, when about to access elements, stop for ever | such states are reachable ones, so C07-C11 and C05 hold of them; a stopped goroutine is at an access in every later state, while in a returned state none is (the goal of the protocol invariant: all goroutines have ended); progress of the others by the step bound; an execution where the caller waits for ever: `VanishEx.v` |
| C56 | `Tally.v`: atomic updates in traces (`Trace.v`) | the protocol invariant of `Soundness.v` along traces, with the cells of every goroutine that has signed off remembered: they are more than MaxLenRec each, disjoint from each other and from what the others still claim; updates + 1 = 2 * (signed off) + (counter). `TallyTop.v`: the entry points; an execution attaining both bounds |
| C57 | `AlikeTop.v`: `compareAlike`, `rearranged` | `Alike.v`: programs of one shape holding corresponding elements (`csim`); all functions of sortyLsw.go have the shape whatever the comparison; forward simulation of traces. Both collections are simulated by the collection of positions, whose memory is the rearrangement |
| C58 | `AlikeTop.v`: `weakAmong` | C06 and C33 for the collection of positions, ordered by what was there; carried over by the simulation of `Alike.v` |
| C59 | `AlikeTyped.v`: `looksAlike`, `movedAlike` | the simulation of `Alike.v` for the functions of `Typed.v`, for any two kinds that differ in their keys only; the rearrangement is read off a third slice of headers whose addresses are their positions |
| C60 | read events in traces (`Trace.v`) | adversary argument in `Looks.v`: if position i is never read, the same trace is an execution on positions with i least (greatest) of all, by the simulation of `Alike.v` off cell i; there i would have to be first (last), C33 |
| C61 | `Cross.v`: `orderedAlike`, `sameSort` | simulation between instances of `Typed.v` with different key types; pivots are keys of elements, so related by position; comparisons agree by `leb_spec`, `ltb_spec`, the NaN passes by `selfNe_nan`; the rearrangement is read off a third instance, whose elements are positions and which keeps them all (`kind_safe`) |
| C62 | `Cross.v`: `numberOf`, `meansAgree` | the same simulation for the instances whose pivots are means: keys are related if equal and within both types, which means preserve |

## 3. Trusted base

* Coq's kernel (8.16.1), including `vm_compute` for the examples and counterexamples.
* Every theorem named in `MANIFEST.json` prints "Closed under the global context" in
  `Properties.v`: no axioms, neither of our own nor of the standard library.  (A checker
  that lists the axioms of every *loaded* library file also sees
  `Coq.ssr.ssrunder.Under_rel.*`; they come with Coq's own `Lia`/ssreflect files and no
  theorem depends on them.)
* No functors, module types, `Admitted`, or disabled kernel checks.
* The reading of Go written down in `Lang.v` (sequentially consistent interleaving of
  element accesses, unbuffered channel rendezvous, atomic add) and the transcription of
  the functions, each of which cites its lines in /repo.

## 4. What is modelled and what is not

Modelled, statement by statement: sorty.go (Search, gorFull, minMaxSample, minMaxFour,
extractSK's kind computation, init check, constants), the ten sortyXX.go files
(isSorted, insertion, pivot, partOne, partTwo, gPartOne, partCon, short, gLong, long,
sort, the float pre-pass and float checker), sortyLsw.go (all functions), the dispatch of
sortySlice.go and sortyLen.go, maxc.go / maxv.go (parameters are variables).

Simplifications:

* The platform is a parameter (`plat` in Kinds.v): the word size `wb` is 4 or 8 bytes and
  every `int`/`uint` computation that can wrap around wraps at that size (`uw`, `iw` in
  Scalar.v, parametric in `wq`, a quarter of the range of `uint`).  All theorems hold for
  both; each panic that comes from wrapping is shown on both (`plat32`, `plat64`).
* The plain 64-bit reads of `sv.nGor` and `MaxGor` are single steps also on 32-bit
  platforms (`sv.nGor` may be read as any value anyhow; tearing of `MaxGor` is covered if
  the bound M of C13-C15 covers the torn values).
* An access to an element is one step, except in C42 and C52, where it is one step per part (word,
  byte) of the element, in any order.
* `insertionI` (sorty.go:130-136, the sort of the sample of sortyLenS/LenB) picks insertionI8 or
  insertionI4 by the size of int; in the model it is the one `insertion`, at the order of int.
* `ar[:k:k]` and `ar[l:h]` are checked against the length, not the capacity (stricter).
* Converting an `any` to a slice (unsafe pointer arithmetic of extractSK) is the identity
  on memory: only the kind computation is modelled, except in C41, where memory is bytes and the
  conversion is a view of them (`Bytes.v`; address and length being those of the argument). A nil `any` panics (Go: method call on a nil
  reflect.Type).
* Packages outside /repo: `sixb.Mean*` are arbitrary functions satisfying `platOk`
  (witness: `bitMean`, the usual `x&y + (x^y)>>1`, proved to satisfy it); `sixb.BtoS`,
  `StoU8`-style header casts are identities on contents.
* `NaNoption` is constant during a call, except in C39, where its two reads return any two values
  (the reads are not steps of the machine: nothing else of the call depends on when they happen).
* The caller's Lesswap is the documented one for some comparison function, each element
  access being a separate step; it panics on indices outside the collection.  The
  model's version panics also for bad swap indices when nothing is swapped (stricter).
* The Go scheduler, stack growth and memory exhaustion are not modelled.
* The garbage collector occurs in C54 only, and there only its marking: memory cells and goroutine stacks are scanned
  one at a time, each at one moment; the write barrier is part of the store.  That stores of
  elements have it (or not) is an assumption, `barrier`, which follows from the Go types the elements are accessed
  with: string, []byte and the caller's own types have it, uint64 and uint32 have not.  What a
  marked element refers to is not modelled, nor is freeing.
* Memory model: element accesses are sequentially consistent (except in C37 and C52,
  where reads return any value visible under happens-before, and nothing new happens; reads of values written
  later in the order of execution are modelled in C53).  That is what the Go memory
  model promises for programs without data races, and C34 shows (for every interleaving) that
  all conflicting element accesses are ordered by happens-before.  The one racy access of the
  code, the plain read of `sv.nGor` in gorFull (sorty.go:88-91, annotated go:norace), may
  return *any* value in the model (`step_stale_main`, `step_stale_thr` in Lang.v), so every
  theorem about `reach` / `traced` holds whatever it returns; only C14_active_bound is about
  executions in which it is up to date (`fresh`; C14_outdated_refuted shows that this is
  needed), and the execution refuting the documented
  quota is such a one.  `MaxGor` may change at any time within [0,M] (so its plain reads
  need no more).
* The race notion is "two goroutines are about to access the same cell, at least one
  writing" in some reachable state.

## 5. Findings

* Goroutine quota (C14): documentation says MaxGor limits the number of goroutines; with
  MaxGor = 3 four can be working, because gPartOne goroutines are not counted and the
  counter test and increment are not atomic.  Proved bound: 2*(MaxGor-1),
  if the racy read of the counter in gorFull is up to date.
* NaNignore (C26): not just an undefined result: an all-NaN slice longer than MaxLenIns
  makes SortSlice loop forever.
* Sort/IsSorted with n = math.MinInt (C27) call Lesswap with out-of-range indices.
* Sort with n above 10/11 of the largest int (C06): sampling overflows int.  On 32-bit platforms
  that is a collection of some 1952 million elements (a bitmap, say), on 64-bit ones it is out of reach.
* Tuning parameters near a quarter of the range of uint (2^30, 2^62) pass init and make SortSlice panic (C28).
* Sort with `<=` instead of `<` (C33): unsorted result and a data race between goroutines;
  any irreflexive comparison is safe.
* NaNoption changed from NaNsmall to NaNlarge while SortSlice or IsSortedSlice runs (C39): the
  variable is read twice, so the call can end up ignoring NaNs, with the consequences of C26.
* Quadratic time (C45): the positions sampled for a pivot depend on the length only, so slices can be
  arranged that take SortSlice about n^2/8 steps, and orders chosen that take Sort about n^2/10.
* The result depends on the schedule (C47): elements that compare equal end up in different orders in
  different runs of a concurrent sort, so neither Sort nor SortLen is reproducible unless MaxGor is 1.
* SortSlice and SortLen need not return if other goroutines keep changing the elements (C49): the
  partition can make the whole slice its left part, and the sorter takes that as its next slice. Sort with
  a Lesswap always returns (C48), it keeps the end elements out of the partition, so that each part is shorter than the whole.
* With NaNs present even short float slices are not sorted stably (+0/-0, C32).
* A panic of the caller's Lesswap that the caller recovers leaves goroutines behind (C50): they go on
  exchanging elements for a while, unnoticed, and one of them may block for ever on the channel
  nobody receives from any more (a leak).  With MaxGor at most 1 there are none.
* If a goroutine started by Sort ends within Lesswap (runtime.Goexit, e.g. t.FailNow in a test), the caller of Sort
  waits for ever (C55): nobody counts the ended goroutine off.  Sort never returns an unsorted collection this way.
* Sorting a slice of pointers is not safe while the garbage collector runs (C54): SortSlice views []*T and
  []unsafe.Pointer as []uint64 (or []uint32), whose stores have no write barrier, so that a concurrent
  mark phase can miss an element; the object it points to is then freed though the slice
  still refers to it, unless something else does too.  If the slice is in order already, nothing is missed.
* The checkers are not snapshots (C51): while others write to the collection, they may report it as
  sorted although it is not at any moment.

## 6. Tests against wrong programs

`seeded/LOG.jsonl` has one line per seeded bug: the definition edited, the edit, the
claim it breaks, what failed to prove, and what was tightened because of it (348 bugs so
far, in every function of the model).
