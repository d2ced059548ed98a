# Formal model of jix/starlit in Rocq (Coq 8.16.1)

## 1. Shape of the work

* `rocq/theories/Model_*.v` – executable, total Gallina model of the Rust code,
  function by function.  Every definition cites file and lines in `/repo`.
* `rocq/theories/Spec.v` – small specification vocabulary that does not mention
  the model: CNF semantics, unit propagation closure, RUP, DRAT runs, the Luby
  sequence, decoders for DRAT text/binary and for CLI output.
* `rocq/theories/Proof_*.v` – lemmas and invariants.
* `rocq/theories/Prop_*.v` – the property theorems, each closed by a lemma,
  with an `Example` showing that its hypotheses are met by a non-trivial case,
  and `Print Assumptions`.

### Modelling conventions

* A method taking `&mut self` becomes a function returning the new value.
* A Rust panic is an explicit result `Panic reason`; loops and recursions
  without a structural measure take fuel and return `OutOfFuel`; theorems say
  neither happens.
* Literals are their `code` (`N`); arena memory is a list of 32-bit words (`N`)
  with the real layout (header words, length word with bit 31 set, literals,
  padding); bytes of `PartialAssignment` are `N < 256`.
* A `dbg : bool` parameter selects debug builds (`debug_assert!`, overflow
  checks) or release builds.
* `TrailIndex`, levels, `Vec` lengths and statistics counters are unbounded
  naturals; `UNASSIGNED` is a separate value (`None`).
* std functions with a contract weaker than their implementation
  (`select_nth_unstable`) are parameters; theorems hold for every
  implementation meeting the contract.
* Not modelled: timing, the `flussab` DIMACS parser, command-line parsing,
  errors on standard output, allocation failure, Rust's type and borrow checking.

## 2. Plan per property

| id | modelled | proof |
|----|----------|-------|
| C01, C05, C06 | whole solver (`add_clause`, `solve`) on word-level state | global invariant preserved by every search step; at exit all variables assigned, no falsified clause |
| C02, C20 | same | invariant: stored clauses are implied by the input; from RUP |
| C03 | same, with fuel | lexicographic measure on per-level assignment counts inside one restart interval; Luby terms are unbounded |
| C04, C08 | `Panic` outcomes | Hoare-style lemmas "returns `Ret`" for every function (C08: debug build refuted by a repeated unit clause) |
| C07 | same | false: refutation by concrete history, plus partial theorems for the supported histories (after an UNSAT answer; late clauses whose first two literals are not false, which the driver `reach` includes) |
| C09, C10, C11, C12 | proof log in `Context` | RUP by closed-set argument; C12 expected false (refuted) |
| C13, C14 | byte encoders | decoder in Spec, round trip by induction |
| C15–C17 | propagation with watch lists, binary lists | watch invariant with levels |
| C18 | `backtrack_to_level` | trail invariant |
| C19, C21, C22, C23 | conflict analysis, minimize, glue incl. scratch buffers | loop invariants |
| C24–C29, C31 | arena words | representation predicate (list of blocks); C31 also for histories with repeated deletions, by a simulation that tracks the surplus of the garbage counter (Prop_ArenaCount.v) |
| C30 | `LongHeader::shrink_clause` | expected false: refuted |
| C32, C43 | bit fields | bitwise lemmas |
| C33, C34 | heap | heap invariant; order after `dequeue` expected false: refuted |
| C35 | vsids | heap contains every unassigned variable |
| C36, C37 | Luby, restart schedule | induction |
| C38–C40 | lit, partial assignment | arithmetic |
| C41 | MutScan with the item size | simulation by a list function for items of non-zero size; for zero-sized items false: the end pointer equals the start pointer, the scan sees nothing, and `offset_from` panics in `drop`: refuted |
| C42, C44, C45, C46, C47, C51 | reduce, statistics, phases, watches | invariants; C45 and C51 expected false in corner cases, and C45's count is then given exactly by the unit clauses taken (Prop_Units.v) |
| C48, C49 | CLI printing | round trip with decoder; C49 expected false |
| C50, C53 | f32 arithmetic with `SpecFloat`, whole search | Flocq's binary32 for rounding; encoding, decoding and arithmetic shown equal to Flocq's; invariant over search histories |
| C52 | search with a list of events | induction over histories |
| C54 | `should_reduce` with f64 arithmetic | Flocq's binary64: `sqrt` and the product are exact up to the floor for up to 2^28 reductions |
| C55–C58 | conflict analysis including callbacks and clause headers | `Drivers_Analysis` defines the involved literals and the first unique implication point on the trail; loop invariant over the trail position |
| C59 | search operations | part of the trail invariant (`Proof_Learn`), for every reachable search state |
| C60 | one scheduled search step | `Prop_Step.step_effect` lists the possible effects on the list of (literal, level) pairs; case analysis of the step |
| C61, C62 | `cli_main`: parsing done, solve, print, proof bytes | decode the bytes with the decoders of `Spec_Format`, then C11/C12; C03/C04 for termination |
| C63 | logger, choice of level, printed bytes | split the output into lines; independent of what is logged |
| C64 | formatted pieces of the report with padding and wrapping arithmetic | words of the line; uses C45's bound on the number of fixed variables |
| C65 | as C21 | the cache invariant is an equivalence: false entries do not follow; induction along the trail |
| C66 | arena with its garbage counter, `collect_garbage`, `search_step` | the counter is exact (C31); no part of a step but the collection at its start changes it |
| C67 | the generator of bit field accessors for any declaration; `HeaderWord` | testbit calculations; disjointness of the ranges by induction over the declarations; order by splitting off the lowest field |
| C68 | `VecMap`, its keys and key iterator over `Range<usize>` | refinement to lists, induction over the calls |
| C69 | `Display` of `Var` and `Lit` | the decimal reader of C14 |
| C70, C71 | buffered writer whose requests fail at chosen points, the program's order of events | writer invariant: the file is a prefix of the bytes written, all of them if nothing failed; every prefix of the bytes is an encoding of a prefix of the steps and part of one step |
| C72, C73 | arbitrary call histories (`Drivers_Api`) on the whole solver | simulation: the states agree except for trail indices (defined in the release build wherever they are in the debug build) and the proof writer; one lemma per function |
| C74 | as C01, C02 | from C01 and C02 |
| C75 | conflict analysis (C19) and the proof log | the watch invariant gives every all-false live clause two literals of the conflict level, a learned clause has one; induction over histories for the whole proof |
| C76 | arena histories with arbitrary references | every history keeps the block structure; a reference either is a block start or fails the check |
| C77 | garbage collection at any buffer size | gaps are exact and sorted below 2^32 words, so that the binary search of the standard library (modelled) finds the right one; beyond, refuted by an arena of three clauses (symbolic, 2^32 + 2 words) |
| C78 | the model keeps these numbers unbounded | bounds from the trail, heap and arena invariants in every visited state: at most one assignment per variable plus one per repeated unit clause; references are checked when a clause is added and only decrease in a collection |
| C79 | every function that contains a log call, with the call (`Model_Trace`) | each function prints the notes of a list that does not depend on the logger; one lemma per function on top of the step theorems (C19, C60); the decisions are the first literals of their levels, so that replaying the notes gives them |
| C80 | the same | with C79: the logged function fails or returns like the function without logging; the utilization is defined by the arena invariant, the percentage by C45 |
| C81 | `prepare_for_backtracking` and `analyze_conflict` with the constant `true` as a parameter (`Model_Prepare`) | swaps are permutations; loop invariant for the largest trail index; then as C19 |
| C82 | the functions of minimize.rs once more with a counter of cache reads, cache writes and clean-up writes (`Model_Cost`) | erasing the counter gives `Model_Analysis` back; potential: every unsettled trail position pays for one scan of its reason, every settled one has paid |
| C83 | the functions of unit_prop.rs once more with a counter of binary clauses, watches and literals visited (`Model_Work`) | erasing the counter gives `Model_Prop` back; potential: a long clause pays for the literals its circular search has still to falsify, a list of an unprocessed literal for its entries; decisions do not raise it |
| C84 | the heap operations once more with a counter of comparisons and exchanges (`Model_HeapCost`) | erasing the counter gives `Model_Heap` back; one level of the tree per iteration, in any state |
| C85 | the recursive redundancy check once more with the number of nested activations (`Model_Depth`) | erasing it gives `Model_Analysis` back; induction with the depth argument, for any bound on the depth the model can follow; the number is exact: allowed to nest k deep, the check gives its result iff k reaches it |
| C86 | the derivation of the first-UIP clause once more with a counter (`Model_DeriveCost`) | erasing the counter gives `Model_Analysis` back; every trail position is visited once and pays for the literals of its reason; the invariants of `Proof_Analysis` show that bumping a clause leaves the literals of all reasons alone |
| C87 | `Model_Prop`, `Model_Solver` | invariants over all steps: three words of the arena pay for two watches, a counted binary clause for its two entries; lengths from the invariants of `Proof_Inv`; with C66 for the arena |
| C88 | the derive macro and the conversions over values as bytes, references as addresses; rustc's layout of structs (`Model_Transparent`) | the first field is at offset 0 and `transmute` checks the size, so it is the whole struct; alignment by powers of two; the way back is false for structs with a second, empty field of larger alignment: refuted |
| C89 | the unbounded counters of `Model_Solver` | increments of every function; the number of search steps as a parameter of the history (`reach_in`); Flocq for the interval between reductions |
| C90 | garbage collection once more with a counter of words, trail steps, watch lists and watches visited (`Model_GcCost`) | erasing the counter gives the functions without it back; a collection runs only when half of the clause memory is garbage, so the words that became garbage pay for it; refuted for an empty clause memory, where every step collects: a family of formulas with quadratic work |
| C91 | derive(Bitfield) on whole structs: fields of any signed or unsigned type, several attributes per field, accessors of any integer type (`Model_BitfieldInt`) | bit by bit: what the setter stores, what the getter extracts, disjoint positions within one attribute. Partial: a full-width declaration in a signed field is sign-extended, negative values are cut off, two attributes on one field overlap and some clamped setters of signed types always panic; each of these is proved |
| C92 | the search loop (`Model_Solver`) | the levels of the assignments along the trail, read as a number of at most 2^(m+1) - 2, increase with every step without a restart (`Proof_Solve.grow_rank`); the Luby terms reach 2^e within any 2^(e+1) restarts (`luby_window`); `Prop_Bound` |
| C93 | the proof log, the stored clauses and the statistics (`Model_Solver`, `Model_Prop`) | the invariant relating the clauses of the proof to the clause memory (`Proof_DB.DBR`), read as numbers of occurrences; the step counts by induction over histories; `Prop_ProofMirror` |
| C94 | search_step and schedule_search_step with the counter of `Model_Work` (`Model_RunWork`) | erasing the counter gives `Model_Solver` back; the potential of C83 pays for all propagation between two conflicts, restarts or late clauses and is at most the size of the clause database, which is bounded by the lengths of the proof steps; `Proof_RunWork`, `Prop_RunWork` |
| C95 | the whole solver with two selection functions, arbitrary call histories | simulation: equal states, statistics and proofs up to reordered deletions; the references have a total order, so the selected sets are equal; the candidates lie apart in the arena, so their deletions commute |
| C96 | analyze_conflict, search_step and schedule_search_step with the counters of `Model_DeriveCost` and `Model_Cost` (`Model_RunAnalysis`) | erasing the counter gives `Model_Solver` back; the long reasons of the trail are different clauses (their first literals differ), so the sizes of all reasons add up to at most the size of the clause database, bounded as in C94; `Proof_RunAnalysis`, `Prop_RunAnalysis` |
| C97 | the functions of vsids.rs, conflict_analysis.rs, trail.rs and search.rs that use the queue, with the counter of `Model_HeapCost` (`Model_RunQueue`) | erasing the counter gives `Model_Solver` back; potential: every entry of the queue pays for its removal, every mark on the trail set by conflict analysis pays for one bump; `Proof_RunQueue`, `Prop_RunQueue` |
| C98 | reduce.rs with a counter, around the counted clause scan of `Model_GcCost` (`Model_ReduceCost`) | erasing the counter gives `Model_Solver` back; the scan never goes back, deletions pay with the garbage they make, garbage fits into the memory; the memory grows by at most m + 3 words per conflict; `Proof_ReduceCost`, `Prop_ReduceCost` |
| C99 | proof.rs, proof/drat.rs (`Model_Solver`, `Model_Drat`) | learned clauses consist of literals false on the trail, so no variable occurs twice; deletions are of clauses added before; length of the two encodings of a literal; `Prop_ProofSize` |
| C100 | the counted functions of C82–C84, C86, C90 and C94–C98 against the loops without counters | the loops of the model stop when their fuel, or the list they are given, is used up: limited to as many rounds as were counted they still give the same result; `Prop_Fair` |
| C101 | heap.rs once more for any type of values and any two comparison functions (`Model_HeapAny`), histories in `Drivers_HeapAny` | the invariant that positions and heap are inverse to each other, which no comparison enters; positions only move towards one end, so the loops stop; the order invariant of C33 under the assumption of a lawful order |
| C102 | the counted search steps of C90, C94, C96, C97 and C98 side by side, in one history (`total_reach` in `Prop_Total`) | every answer of `solve` has such a history; steps are paid for by conflicts and decisions, decisions by levels, of which there are at most n between conflicts or restarts; the bounds of the five parts are added up |
| C103 | heap.rs once more for comparisons and functions with side effects that may panic (`Model_HeapPanic`): a call leaves a heap behind whether it returns or not | the invariant of C101 holds between any two exchanges, so it survives unwinding; without panics the calls are those of C101; `apply_panic` says which values a panic in `apply_monotone` leaves changed |
| C104 | `resize` with a `clone` that panics (`p_resize_clone` in `Model_HeapPanic`) | violated: heap.rs 63 lengthens one vector before line 64 the other (`clone_panic_refuted`); what still holds are `clone_panic_partial` and `clone_panic_calls_partial` |
| C105 | `resize` with a destructor that panics (`p_resize_drop` in `Model_HeapPanic`) | violated for indices that no longer exist (`drop_panic_refuted`); for all others the calls are simulated by those on the heap without the surplus positions (`drop_panic_calls_partial`) |

## 3. Trusted base

**Kernel and axioms.**  Coq 8.16.1's kernel (including `vm_compute`, used for
the examples and refutations).  `Print Assumptions` stands at the end of each
`Prop_*.v` file.  It reports *Closed under the global context* for every theorem
in MANIFEST.json except those of `Prop_Vsids.v` (C50, C53), `Prop_Float.v` (C50),
`Prop_Sched.v` (C54), `Prop_Counters.v` (C89) the last two of `Prop_ReduceCost.v` (C98) and `total_cubic` of `Prop_Total.v` (C102), which use Flocq's theory of rounding and so the standard library's
axiomatization of the real numbers:

* `ClassicalDedekindReals.sig_not_dec`
* `ClassicalDedekindReals.sig_forall_dec`
* `FunctionalExtensionality.functional_extensionality_dep`
* `Classical_Prop.classic`

No axiom is declared in this development.

**Correspondence of model and code.**  Every definition of `Model_*.v` cites the
lines it models; this correspondence was established by reading.  Cited paths
are relative to `/repo/starlit/src`, unless they begin with `starlit-cli/` or
`starlit-macros/` (relative to `/repo`).

| file in /repo | model | not modelled |
|---|---|---|
| starlit/src/lit.rs | `Model_Lit`; formatting in `Model_VecMap` | formatting options; `LitIdx` conversions other than to u32/usize |
| starlit/src/partial_assignment.rs | `Model_PartialAssignment` | |
| starlit/src/clause_arena.rs | `Model_Arena` | raw pointers (the buffer is a list of words, so `unsafe` accesses are checked accesses: an out-of-range one is a `Panic`) |
| starlit/src/heap.rs | `Model_Heap`; any type of values in `Model_HeapAny`; comparisons that panic or change state in `Model_HeapPanic`; its work in `Model_HeapCost` | the key type (indices are natural numbers) |
| starlit/src/util/mut_scan.rs | `Model_MutScan` (a panic of the caller is a removal followed by the drop of the scan) | |
| starlit/src/util/vec_map.rs | `Model_VecMap`; inlined where used | |
| starlit-macros/src/bitfield.rs | `Model_Bitfield` (the generated accessors for unsigned types), `Model_BitfieldInt` (whole structs, any integer types) | parsing of the attribute; accessor types that are neither `bool` nor integers |
| starlit/src/util/transparent.rs, starlit-macros/src/transparent.rs | `Model_Transparent`; inlined where used | parsing of tokens, generic structs; rustc's layout of structs follows the Rust reference |
| starlit/src/prop.rs, prop/*.rs, context.rs, stats.rs, tracking.rs | `Model_Prop`, `Model_Header`; the work of unit_prop.rs in `Model_Work` (per search step in `Model_RunWork`), that of garbage collection (also clause_arena.rs) in `Model_GcCost` | |
| starlit/src/conflict_analysis.rs, minimize.rs, glue.rs | `Model_Analysis`; the unused `prepare_for_backtracking` in `Model_Prepare`; the work of minimize.rs in `Model_Cost`, its depth of recursion in `Model_Depth`, the work of the derivation in `Model_DeriveCost`, that of the whole analysis per search step in `Model_RunAnalysis` and of the priority queue in `Model_RunQueue` | |
| starlit/src/search.rs, search/*.rs | `Model_Solver`, `Model_Vsids`; the work of reduce.rs in `Model_ReduceCost` | the algorithm of `select_nth_unstable` (any one: `select_ok`) |
| starlit/src/state.rs, state/luby.rs, solver.rs | `Model_Solver`, `Model_Luby` | wrapping of 64-bit counters (C89 shows where it cannot happen) |
| starlit/src/proof.rs, proof/drat.rs | `Model_Drat`, `Model_Writer` | `flussab::DeferredWriter` itself (modelled after its documentation) |
| starlit/src/log.rs, starlit-macros/src/log.rs | `Model_Log`; the calls of the macros in `Model_Trace` | `Debug` of floating point numbers and durations (parameters), `time`, the macros' parsing of tokens, write errors |
| starlit/src/report.rs | `Model_Report`; `Model_Solver.report` keeps only whether it panics | measuring the time |
| starlit-cli/src/main.rs | `Model_Cli`, `Model_Writer` (errors) | argument parsing, errors on standard output, the DIMACS parser (`flussab-cnf`); the logger set-up is in `Model_Log` |

**Specification.**  `Spec.v`, `Spec_Format.v` and the `Drivers*.v` files, which
define the vocabulary of the theorem statements (formulas, proofs, reachable and
visited states, histories, involved literals).
