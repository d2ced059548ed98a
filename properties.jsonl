{"id": "C01", "title": "SAT answers are real models", "statement": "If solve() returns true after a sequence of add_clause calls, then reading the variables back through value() gives an assignment in which every added clause contains a literal whose value is Some(true).", "quantifier": "every finite list of clauses (including empty, unit, duplicate-literal and tautological clauses), every heuristic outcome, every number of search steps", "why_tests_cant": "The set of formulas and search histories is infinite; a test only shows particular models.", "anchors": ["starlit/src/solver.rs: Solver::solve, Solver::value, Solver::add_clause", "starlit/src/search.rs: search_step", "starlit/src/prop/unit_prop.rs: propagate", "starlit/src/search/vsids.rs: pop_decision_var"]}
{"id": "C02", "title": "UNSAT answers are correct", "statement": "If solve() returns false after a sequence of add_clause calls, then no total Boolean assignment satisfies all added clauses.", "quantifier": "every finite list of clauses and every total assignment of the variables", "why_tests_cant": "Refuting all 2^n assignments for every formula is not testable; a single unsound learned clause only shows up on rare histories.", "anchors": ["starlit/src/solver.rs: Solver::solve", "starlit/src/conflict_analysis.rs: analyze_conflict", "starlit/src/minimize.rs: minimize", "starlit/src/prop.rs: add_clause_verbatim"]}
{"id": "C03", "title": "solve() terminates", "statement": "Every call of solve() made after a sequence of add_clause calls returns after finitely many search steps, in spite of restarts and clause deletion (as long as the clause arena stays within its 32-bit address range and the 64-bit counters do not wrap).", "quantifier": "every finite list of clauses, every reduction order permitted by select_nth_unstable", "why_tests_cant": "Non-termination cannot be observed by a finite test; restarts plus deletion can livelock in principle.", "anchors": ["starlit/src/solver.rs: Solver::solve", "starlit/src/state.rs: schedule_search_step, should_restart", "starlit/src/state/luby.rs: LubySequence::advance"]}
{"id": "C04", "title": "solve() never panics", "statement": "No call of solve() made after a sequence of add_clause calls hits an out-of-bounds index, a failed assert!, an unwrap of None/Err or an arithmetic underflow, except the documented 'arena full' unwrap; in debug builds no debug_assert fires either.", "quantifier": "every finite list of clauses, release and debug builds, every search step", "why_tests_cant": "Index and underflow conditions depend on global invariants between trail, watch lists, arena and scratch buffers over the whole history.", "anchors": ["starlit/src/prop/unit_prop.rs: propagate_long_clauses", "starlit/src/conflict_analysis.rs: derive_1uip_clause", "starlit/src/minimize.rs: minimize", "starlit/src/prop/trail.rs: backtrack_to_level", "starlit/src/prop.rs: collect_garbage_now"]}
{"id": "C05", "title": "value() is a total consistent assignment after SAT", "statement": "After solve() returned true, value() is Some for both literals of every variable that occurs in an added clause, the two answers are opposite, and value() is None for variables that never occurred (index not below the number of variables).", "quantifier": "every formula, every literal", "why_tests_cant": "Ranges over every literal of every formula.", "anchors": ["starlit/src/solver.rs: Solver::value", "starlit/src/partial_assignment.rs: PartialAssignment::value"]}
{"id": "C06", "title": "solve() is repeatable", "statement": "Calling solve() again without adding clauses gives the same answer as before, and after a true answer value() again describes a model.", "quantifier": "every formula, any number of repeated solve() calls", "why_tests_cant": "The second call starts from whatever internal state the first left (non-empty trail, drained heap, pending restart).", "anchors": ["starlit/src/solver.rs: Solver::solve", "starlit/src/state.rs: schedule_search_step"]}
{"id": "C07", "title": "Incremental use: clauses added after a SAT answer are respected", "statement": "If clauses are added after a solve() call returned true, a later solve() call answers for the conjunction of all clauses added so far.", "quantifier": "every history of add_clause and solve calls", "why_tests_cant": "Histories interleave arbitrarily; the outcome depends on the trail left by the previous call.", "anchors": ["starlit/src/solver.rs: Solver::add_clause", "starlit/src/prop.rs: add_clause_verbatim"]}
{"id": "C08", "title": "add_clause accepts every clause", "statement": "add_clause never panics on a list of valid literals (in either build mode), whatever clauses were added before, unless the arena is full.", "quantifier": "every history of add_clause calls before the first solve", "why_tests_cant": "Depends on previously added clauses.", "anchors": ["starlit/src/solver.rs: Solver::add_clause", "starlit/src/prop.rs: add_clause_verbatim", "starlit/src/prop/trail.rs: assign_raw"]}
{"id": "C09", "title": "Every logged proof addition is RUP", "statement": "With a proof writer installed before the first clause is learned, every clause passed to Proof::add_clause has the reverse-unit-propagation property with respect to the input clauses plus the logged additions minus the logged deletions up to that point.", "quantifier": "every formula, every prefix of every run", "why_tests_cant": "Requires the implication graph, minimization and deletions to stay consistent over the whole history.", "anchors": ["starlit/src/conflict_analysis.rs: learn_and_assign", "starlit/src/proof.rs: Proof", "starlit/src/search/reduce.rs: reduce"]}
{"id": "C10", "title": "The logged proof refutes the formula", "statement": "When solve() returns false, the logged proof is valid and unit propagation on the input clauses plus logged additions minus logged deletions derives a conflict.", "quantifier": "every unsatisfiable formula and every run", "why_tests_cant": "As above; a deleted reason clause would only matter on rare runs.", "anchors": ["starlit/src/search.rs: search_step", "starlit/src/search/reduce.rs: protect_clauses"]}
{"id": "C11", "title": "Proof deletions are sound", "statement": "Every Proof::delete_clause call removes a clause that was added through Proof::add_clause before, up to literal order, and not more often than it was added; input clauses are never deleted.", "quantifier": "every formula and every run", "why_tests_cant": "Depends on arena contents, which are permuted in place by propagation and moved by garbage collection.", "anchors": ["starlit/src/search/reduce.rs: reduce", "starlit/src/prop/long.rs: LongHeader::redundant"]}
{"id": "C12", "title": "The DRAT proof ends with the empty clause", "statement": "When solve() returns false, the logged proof contains the addition of the empty clause (as the DRAT format definition asks).", "quantifier": "every unsatisfiable formula", "why_tests_cant": "Ranges over all runs.", "anchors": ["starlit/src/search.rs: search_step", "starlit/src/proof/drat.rs"]}
{"id": "C13", "title": "Binary DRAT output is decodable", "statement": "The byte string written by BinaryDrat for any sequence of additions and deletions decodes, with the binary DRAT grammar (tag byte, LEB128 of 2*var+neg, 0 terminator), to exactly that sequence.", "quantifier": "every sequence of proof steps over every valid literal (up to 2^30 variables)", "why_tests_cant": "Infinite set of sequences; byte boundaries at every power of 128.", "anchors": ["starlit/src/proof/drat.rs: BinaryDrat::write_lit, write_lits, add_clause, delete_clause"]}
{"id": "C14", "title": "Text DRAT output is decodable", "statement": "The text written by Drat for any sequence of additions and deletions parses back to exactly that sequence of DIMACS clauses.", "quantifier": "every sequence of proof steps over every valid literal", "why_tests_cant": "Infinite set of sequences.", "anchors": ["starlit/src/proof/drat.rs: Drat::add_clause, delete_clause"]}
{"id": "C15", "title": "Unit propagation is sound", "statement": "Every literal on the trail that is not a decision follows by unit propagation from the stored clauses and the preceding decisions: its recorded reason is a stored clause whose other literals were all falsified earlier on the trail.", "quantifier": "every reachable solver state", "why_tests_cant": "Reasons refer to clauses that are reordered, deleted and moved later.", "anchors": ["starlit/src/prop/unit_prop.rs: propagate_binary_clauses, propagate_long_clauses", "starlit/src/prop/trail.rs: Reason"]}
{"id": "C16", "title": "Unit propagation is complete", "statement": "When propagate returns Ok, no stored clause is falsified by the current assignment and, for clauses without repeated literals, no stored clause is unit without being satisfied.", "quantifier": "every reachable solver state, every watch-list layout", "why_tests_cant": "A lost watch is only visible on specific later assignments.", "anchors": ["starlit/src/prop/unit_prop.rs: propagate", "starlit/src/prop/watch.rs: Watches"]}
{"id": "C17", "title": "Reported conflicts are falsified stored clauses", "statement": "When propagate returns an error, the referenced clause is currently stored and all its literals are false, and at a positive decision level at least one of them was falsified at the current level.", "quantifier": "every reachable solver state", "why_tests_cant": "Depends on the complete history of watches and backtracking.", "anchors": ["starlit/src/prop/unit_prop.rs: propagate", "starlit/src/prop.rs: ConflictClause"]}
{"id": "C18", "title": "Backtracking undoes exactly the higher levels", "statement": "backtrack_to_level(k) keeps exactly the assignments of levels at most k in order, unassigns all others, calls the unassign callback once for each in trail order, panics exactly when k is not below the current level, and keeps the watch invariant without touching watch lists.", "quantifier": "every reachable state and every target level", "why_tests_cant": "All levels of all trails.", "anchors": ["starlit/src/prop/trail.rs: backtrack_to_level, BacktrackCallbacks"]}
{"id": "C19", "title": "Learned clauses are asserting", "statement": "After analyze_conflict the learned clause's first literal is true at the new decision level, all other literals are false at levels at most that level, the second literal is of exactly that level (level 0 for a unit clause), and the new level is strictly below the conflict level.", "quantifier": "every conflict in every reachable state", "why_tests_cant": "Depends on arbitrary implication graphs.", "anchors": ["starlit/src/conflict_analysis.rs: analyze_conflict, learn_and_assign", "starlit/src/minimize.rs: minimize"]}
{"id": "C20", "title": "Learned clauses are implied", "statement": "Every learned clause is satisfied by every total assignment that satisfies the input clauses.", "quantifier": "every formula, every run, every assignment", "why_tests_cant": "Semantic entailment over all assignments.", "anchors": ["starlit/src/conflict_analysis.rs: derive_1uip_clause", "starlit/src/minimize.rs"]}
{"id": "C21", "title": "Minimization only removes implied literals", "statement": "minimize keeps the asserting literal, returns a sub-multiset of the 1-UIP clause, and each removed literal's falsification follows by unit propagation over the recorded reasons from the kept literals' falsification and the top-level assignments; both the recursive and the iterative search obey this.", "quantifier": "every implication graph, every depth (the iterative variant takes over beyond depth 20)", "why_tests_cant": "Deep implication graphs and caches shared between literals.", "anchors": ["starlit/src/minimize.rs: minimize, literal_index_is_redundant_rec_uncached, literal_index_is_redundant_iter"]}
{"id": "C22", "title": "Scratch buffers are clean between conflicts", "statement": "After every analyze_conflict the per-trail-index clause flags, the per-level glue flags, the minimization cache and the first-on-level table (for the positive levels) are back in their initial state and the current-level counter is zero, so one conflict's analysis never influences the next.", "quantifier": "every sequence of conflicts", "why_tests_cant": "A leaked flag corrupts an arbitrary later clause.", "anchors": ["starlit/src/conflict_analysis.rs: ConflictAnalysis", "starlit/src/minimize.rs: MinimizeClause", "starlit/src/glue.rs: compute_glue"]}
{"id": "C23", "title": "Glue is the number of distinct decision levels", "statement": "compute_glue returns the number of distinct decision levels among the clause's variables and leaves the flag buffer all false.", "quantifier": "every trail and every list of assigned literals", "why_tests_cant": "All lists of literals, with repetitions.", "anchors": ["starlit/src/glue.rs: compute_glue"]}
{"id": "C24", "title": "Arena reads return what was written", "statement": "After add_clause(header, lits) returned a reference, lits/header/clause_len on that reference return exactly these values, and no other live reference's contents change, for every header length including zero.", "quantifier": "every history of arena operations, every header size", "why_tests_cant": "Word-level layout with in-band markers; all sizes and histories.", "anchors": ["starlit/src/clause_arena.rs: ClauseArena::add_clause, lits, header, clause_len"]}
{"id": "C25", "title": "Deleting a clause affects only that clause", "statement": "delete_clause makes exactly that reference read as empty; all other references still read the same contents; the deleted reference stays valid until the next collection.", "quantifier": "every history of arena operations", "why_tests_cant": "As above.", "anchors": ["starlit/src/clause_arena.rs: ClauseArena::delete_clause"]}
{"id": "C26", "title": "Iteration visits every live clause once, in order", "statement": "Repeated next_clause starting from None yields exactly the references of the non-deleted clauses in insertion order and then None, also when clauses were shrunk or deleted, including deletion of the current clause while iterating.", "quantifier": "every arena state", "why_tests_cant": "Skip distances depend on lengths, padding and deleted blocks.", "anchors": ["starlit/src/clause_arena.rs: ClauseArena::next_clause, find_clause"]}
{"id": "C27", "title": "Garbage collection preserves live clauses", "statement": "collect_garbage keeps exactly the live clauses with their headers and literals in order; the returned map sends each live old reference to the reference that now holds its contents, and each deleted old reference to None.", "quantifier": "every arena state whose buffer fits in 32-bit word addresses", "why_tests_cant": "All layouts of gaps.", "anchors": ["starlit/src/clause_arena.rs: ClauseArena::collect_garbage, ClauseRefGcMap::update"]}
{"id": "C28", "title": "Invalid clause references are detected", "statement": "clause_len (and hence lits, header, ...) panics for every reference that is not the position of a stored clause, so the unchecked reads behind it stay inside the buffer: the literal range of a valid reference lies within the buffer.", "quantifier": "every arena state and every 32-bit reference value", "why_tests_cant": "2^32 references times all layouts; this is the memory-safety argument of the unsafe code.", "anchors": ["starlit/src/clause_arena.rs: ClauseArena::clause_len, HeaderWord, LEN_MARKER"]}
{"id": "C29", "title": "Shrinking a clause keeps its prefix", "statement": "shrink_clause(c, n) with 1 <= n <= len makes c read as its first n literals and changes no other clause; iteration and collection still see every clause.", "quantifier": "every arena state, clause and n", "why_tests_cant": "Padding words in all layouts.", "anchors": ["starlit/src/clause_arena.rs: ClauseArena::shrink_clause"]}
{"id": "C30", "title": "Shrinking keeps long clauses propagatable", "statement": "After shrink_clause on a long clause with LongHeader, the stored search position is again a valid position among the non-watched literals, so the next propagation of the clause does not index out of bounds.", "quantifier": "every stored long clause, search position and new length", "why_tests_cant": "Depends on the previously saved position.", "anchors": ["starlit/src/prop/long.rs: LongHeader::shrink_clause", "starlit/src/prop/unit_prop.rs: propagate_long_clauses"]}
{"id": "C31", "title": "Arena utilization is exact", "statement": "utilization().used equals the number of words occupied by live clauses, and never underflows.", "quantifier": "every history of add, shrink, delete and collect operations", "why_tests_cant": "All histories.", "anchors": ["starlit/src/clause_arena.rs: ClauseArena::utilization, delete_clause, should_collect_garbage"]}
{"id": "C32", "title": "Clause header fields are independent", "statement": "Setting redundant, protected, glue, used or search_pos of a LongHeader reads back the (saturated) value, leaves every other field unchanged and never sets the marker bit.", "quantifier": "every header value and every written value", "why_tests_cant": "2^62 header values.", "anchors": ["starlit/src/prop/long.rs: LongHeader", "starlit/src/clause_arena.rs: HeaderWord::set_field, set_bit"]}
{"id": "C33", "title": "pop_max returns the maximum", "statement": "On a MaxHeap, after any sequence of operations, pop_max returns an enqueued index whose value is maximal among the enqueued indices and dequeues only it; None only if nothing is enqueued.", "quantifier": "every history of resize, enqueue, dequeue, increase, apply_monotone and pop_max", "why_tests_cant": "All histories.", "anchors": ["starlit/src/heap.rs: MaxHeap"]}
{"id": "C34", "title": "Heap membership is exact", "statement": "is_enqueued(i) holds exactly if i was enqueued and not dequeued/popped since; enqueue is idempotent and no operation but pop/dequeue/shrinking loses an index.", "quantifier": "every history of heap operations including dequeue", "why_tests_cant": "All histories.", "anchors": ["starlit/src/heap.rs: MaxHeap::enqueue, dequeue, is_enqueued"]}
{"id": "C35", "title": "The decision heuristic never misses an unassigned variable", "statement": "pop_decision_var returns only unassigned variables, and returns None only if every variable is assigned.", "quantifier": "every reachable solver state", "why_tests_cant": "The heap is maintained lazily over the whole history.", "anchors": ["starlit/src/search/vsids.rs: Vsids::pop_decision_var, unassign"]}
{"id": "C36", "title": "The restart sequence is the Luby sequence", "statement": "The n-th call of advance() on a fresh LubySequence returns the n-th term of the reluctant doubling (Luby) sequence.", "quantifier": "every n (while the 64-bit counters do not wrap)", "why_tests_cant": "The unit test checks 64 terms.", "anchors": ["starlit/src/state/luby.rs: LubySequence::advance"]}
{"id": "C37", "title": "Restarts happen on the Luby schedule", "statement": "Successive restarts are separated by at least 512 times the respective Luby term many conflicts, and a restart happens at the first step at which that many conflicts have been seen.", "quantifier": "every run", "why_tests_cant": "All runs.", "anchors": ["starlit/src/state.rs: should_restart"]}
{"id": "C38", "title": "Literal and DIMACS encodings are bijective", "statement": "from_dimacs/dimacs are mutually inverse on valid values, from_code/code and from_index/index/is_positive round-trip, !l flips only the polarity and is an involution, and out-of-range arguments panic; the exported limits MAX_INDEX, MAX_VAR_COUNT, MAX_DIMACS and MAX_CODE are exact, the unchecked constructors agree with the checked ones on arguments in range, and the orders follow the numbering.", "quantifier": "every literal up to MAX_CODE and every 64-bit integer argument", "why_tests_cant": "2^31 literals, 2^64 arguments.", "anchors": ["starlit/src/lit.rs: Lit, Var"]}
{"id": "C39", "title": "select_other returns the other literal", "statement": "For l equal to a or b, l.select_other(a, b) is the other one of the two.", "quantifier": "every pair of literals", "why_tests_cant": "2^62 pairs.", "anchors": ["starlit/src/lit.rs: Lit::select_other"]}
{"id": "C40", "title": "PartialAssignment behaves like a map to Option<bool>", "statement": "After any sequence of resize, assign and unassign calls, is_true, is_false, is_assigned and value agree with an abstract map from variables to Option<bool>, although only 8 bits of each literal code are stored.", "quantifier": "every history and every variable index", "why_tests_cant": "Index truncation to 8 bits wraps at every 128 variables.", "anchors": ["starlit/src/partial_assignment.rs: PartialAssignment"]}
{"id": "C41", "title": "MutScan is an in-place filter-map", "statement": "Scanning a Vec with MutScan, keeping (possibly modified) or removing each visited item and then dropping the scan leaves the vector holding the kept items in order followed by the unvisited items; every item is moved out exactly once and no uninitialized slot is read.", "quantifier": "every vector, every item type and every sequence of keep/remove/stop decisions", "why_tests_cant": "All vectors and decision sequences; this is the memory-safety argument of the unsafe code.", "anchors": ["starlit/src/util/mut_scan.rs: MutScan, MutScanItem"]}
{"id": "C42", "title": "Reduction only deletes eligible clauses", "statement": "reduce deletes only redundant clauses that are not currently reasons and have glue above 2, and just under half of the deletable ones, those with the highest score; binary, unit and input clauses always survive; the protected flag is clear again afterwards.", "quantifier": "every reachable state, every order select_nth_unstable may produce", "why_tests_cant": "Depends on trail and clause headers of arbitrary states.", "anchors": ["starlit/src/search/reduce.rs: reduce, protect_clauses"]}
{"id": "C43", "title": "Reduction scores are ordered lexicographically", "statement": "The packed reduction score orders clauses by (3 - used), then glue, then length saturated to 24 bits.", "quantifier": "every used/glue/len value", "why_tests_cant": "2^32 scores, saturation boundary.", "anchors": ["starlit/src/search/reduce.rs: Score", "starlit-macros/src/bitfield.rs: derive_bitfield"]}
{"id": "C44", "title": "Formula statistics count the stored clauses", "statement": "stats.formula.binary/irredundant/redundant equal the number of stored binary, irredundant long and redundant long clauses, and the decrement in reduce never underflows.", "quantifier": "every reachable solver state", "why_tests_cant": "All histories.", "anchors": ["starlit/src/prop.rs: add_clause_verbatim, FormulaStats", "starlit/src/search/reduce.rs: reduce"]}
{"id": "C45", "title": "fixed_vars counts distinct top-level variables", "statement": "After a successful top-level propagation stats.prop.fixed_vars is the number of distinct variables assigned at the top level; in particular it never exceeds stats.formula.vars, which report() subtracts it from.", "quantifier": "every formula", "why_tests_cant": "Depends on the clause history.", "anchors": ["starlit/src/prop/trail.rs: Trail::fixed_var_count", "starlit/src/report.rs: report"]}
{"id": "C46", "title": "Phase saving", "statement": "A decision on a variable that was assigned before uses the polarity of its most recent undone assignment, and false if it was never assigned.", "quantifier": "every history of assignments and backtracks", "why_tests_cant": "All histories.", "anchors": ["starlit/src/search/phases.rs: Phases"]}
{"id": "C47", "title": "Disabling and re-enabling watch lists is transparent", "statement": "enable_watch_lists(false) followed by enable_watch_lists(true) yields watch lists under which every live long clause is watched exactly by its first two literals.", "quantifier": "every arena state", "why_tests_cant": "All arenas.", "anchors": ["starlit/src/prop/watch.rs: enable_watch_lists, rebuild_watch_lists"]}
{"id": "C48", "title": "CLI output describes a model", "statement": "If the program prints 's SATISFIABLE', the printed 'v' lines are at most 78 characters long, and read as one zero-terminated list they contain one literal for every variable occurring in the formula and satisfy every clause.", "quantifier": "every formula accepted by the parser", "why_tests_cant": "All formulas, all line-wrapping positions.", "anchors": ["starlit-cli/src/main.rs: main"]}
{"id": "C49", "title": "CLI exit code distinguishes the answers", "statement": "The process exit status is 10 for satisfiable and 20 for unsatisfiable formulas, as the SAT competition output convention prescribes.", "quantifier": "every formula accepted by the parser", "why_tests_cant": "All formulas.", "anchors": ["starlit-cli/src/main.rs: main"]}
{"id": "C50", "title": "VSIDS activities stay finite and ordered", "statement": "Variable activities and the bump increment are always finite non-negative single-precision numbers, so that comparing their bit patterns as integers is comparing the activities; bumping never decreases an activity and rescaling never inverts the order of two activities.", "quantifier": "every history of bumps, decays and rescalings", "why_tests_cant": "Floating-point rounding and overflow over arbitrarily long runs.", "anchors": ["starlit/src/search/vsids.rs: Vsids::bump_var, decay, rescale"]}
{"id": "C51", "title": "propagations statistic counts propagated literals", "statement": "stats.prop.propagations equals the total number of literals that were completely propagated.", "quantifier": "every run", "why_tests_cant": "All runs.", "anchors": ["starlit/src/prop/unit_prop.rs: propagate"]}
{"id": "C52", "title": "Search statistics count the search events", "statement": "stats.search.decisions, conflicts, restarts and reductions equal the number of decisions taken, conflicts found, restarts and reductions performed since the solver was created.", "quantifier": "every run", "why_tests_cant": "All runs.", "anchors": ["starlit/src/search.rs: search_step, restart", "starlit/src/search/reduce.rs: reduce"]}
{"id": "C53", "title": "Decisions take the most active variable", "statement": "The variable chosen for a decision has the largest activity, as a number, of all unassigned variables.", "quantifier": "every reachable solver state", "why_tests_cant": "The heap is updated lazily and compares bit patterns of floating-point numbers over the whole history.", "anchors": ["starlit/src/search/vsids.rs: Vsids::pop_decision_var, bump_var, decay", "starlit/src/heap.rs: MaxHeap"]}
{"id": "C54", "title": "Reduction schedule", "statement": "A search step reduces the clause database if and only if the number of conflicts so far is at least the sum of floor(2000 sqrt(i)) over the reductions i = 1, 2, ... performed so far, and at most once (for up to 2^28 reductions); the double-precision computation of the interval is exact.", "quantifier": "every reachable solver state", "why_tests_cant": "Rounding of square roots and products for every reduction count, over the whole history.", "anchors": ["starlit/src/state.rs: should_reduce, schedule_search_step"]}
{"id": "C55", "title": "Every variable of a conflict is bumped exactly once", "statement": "Analyzing a conflict bumps exactly the variables of the literals that occur, above level 0, in the conflict clause or in a reason resolved on the way to the first unique implication point, each exactly once, and afterwards raises the bump increment; all other activities stay the same (as long as no rescaling happens, otherwise all are rescaled alike).", "quantifier": "every conflict above level 0 in every reachable search state", "why_tests_cant": "All implication graphs and histories.", "anchors": ["starlit/src/conflict_analysis.rs: derive_1uip_clause, add_literal", "starlit/src/search.rs: var_in_conflict, analyzed_conflict", "starlit/src/search/vsids.rs: bump_var, decay"]}
{"id": "C56", "title": "Clauses used in a conflict get their glue and usage updated", "statement": "Analyzing a conflict sets the glue of the long conflict clause and of every long reason resolved on the way to the first unique implication point to the number of distinct decision levels of its literals (saturating at 63), and increments its usage counter (saturating at 3). Nothing else in the headers of the existing clauses changes, and no clause is lost.", "quantifier": "every conflict above level 0 in every reachable search state", "why_tests_cant": "All implication graphs and histories.", "anchors": ["starlit/src/conflict_analysis.rs: bump_long_clause", "starlit/src/glue.rs: compute_glue", "starlit/src/prop/long.rs: LongHeader"]}
{"id": "C57", "title": "Header of a learned clause", "statement": "A learned clause of three or more literals is the only clause a conflict adds to the long clauses; it is marked redundant, not protected and used once, its search position is 0 and its glue is the number of distinct levels of its literals other than the asserting one (saturating at 63).", "quantifier": "every conflict above level 0 in every reachable search state", "why_tests_cant": "All learned clauses.", "anchors": ["starlit/src/conflict_analysis.rs: learn_and_assign", "starlit/src/prop/long.rs: LongHeader::new_learned_clause"]}
{"id": "C58", "title": "Conflicts are resolved to the first unique implication point", "statement": "The clause derived from a conflict consists of the negation of the first unique implication point (the last assigned literal of the conflict level to which alone, within that level, the conflict can be resolved in trail order) and exactly the literals from levels between 1 and the conflict level that this resolution leaves, without repetitions.", "quantifier": "every conflict above level 0 in every reachable search state", "why_tests_cant": "All implication graphs.", "anchors": ["starlit/src/conflict_analysis.rs: derive_1uip_clause"]}
{"id": "C59", "title": "Implied literals are assigned at the level that implies them", "statement": "The decision level recorded for an implied literal is the largest level among the falsified literals of its reason clause, and the second literal of the reason has exactly that level; so a literal is never undone later or earlier than its reason requires.", "quantifier": "every reachable search state, every implied literal", "why_tests_cant": "All histories of decisions, conflicts, restarts and reductions.", "anchors": ["starlit/src/prop/unit_prop.rs: propagate", "starlit/src/conflict_analysis.rs: learn_and_assign", "starlit/src/prop/trail.rs: assign"]}
{"id": "C60", "title": "What a search step does to the assignment", "statement": "A search step first undoes all decisions if it restarts and leaves the assignment alone otherwise, then extends the assignment by implied literals, and then does exactly one of: report satisfiable when every variable is assigned; take one decision on an unassigned variable; report unsatisfiable on a conflict without decisions; or, on a conflict, go back to a lower level and assign the asserting literal of the learned clause there. Clause database reduction never changes the assignment.", "quantifier": "every reachable search state and every outcome of the heuristics", "why_tests_cant": "All search histories.", "anchors": ["starlit/src/search.rs: search_step, restart", "starlit/src/state.rs: schedule_search_step"]}
{"id": "C61", "title": "The proof file of the program", "statement": "When the command line program is given a proof file, the bytes written, in either format, decode to a sequence of additions and deletions that is a valid DRAT proof from the input formula; if the program printed s UNSATISFIABLE the proof refutes the formula (with a unit conflict as its last step).", "quantifier": "every input formula, both proof formats, every run that ends", "why_tests_cant": "All formulas and all search histories, through serialization.", "anchors": ["starlit-cli/src/main.rs: main", "starlit/src/proof/drat.rs: Drat, BinaryDrat", "starlit/src/proof.rs"]}
{"id": "C62", "title": "The program always answers", "statement": "In release builds, for every input formula the program ends after finitely many search steps with a correct answer: s SATISFIABLE with the model of the formula, or s UNSATISFIABLE for an unsatisfiable formula; the only other outcome is the panic on a full clause arena.", "quantifier": "every input formula", "why_tests_cant": "All formulas; termination and absence of panics over all search histories.", "anchors": ["starlit-cli/src/main.rs: main", "starlit/src/solver.rs: Solver::solve, Solver::add_clause"]}
{"id": "C63", "title": "Log output never disturbs the result", "statement": "A log message is printed if and only if its level is at most the level set last; with -v given n times exactly the messages of the first n+1 levels are printed, with -q none. Every printed message is a comment line, so that ignoring the comment lines on standard output leaves exactly the result lines of the program, at every verbosity. A logging macro prints the given messages and values in order, each after a blank and a value after its name and a colon.", "quantifier": "every history of logger configuration, every sequence of messages without line ends, every run", "why_tests_cant": "All message sequences and verbosity settings.", "anchors": ["starlit/src/log.rs: Logger::log, Logger::set_log_level, perform_log", "starlit-macros/src/log.rs: log_items", "starlit-cli/src/main.rs: main"]}
{"id": "C64", "title": "Progress reports show the statistics", "statement": "The line printed by report() shows, in this order, the running time, the numbers of reductions, restarts and conflicts, of binary, redundant and irredundant clauses, and the number and (rounded down) percentage of variables that are not fixed, as one comment line of blank separated words; in debug builds computing it does not overflow. It is printed exactly if log level Info is active; otherwise report() has no effect.", "quantifier": "every reachable search state, every running time", "why_tests_cant": "All histories; the subtraction underflows as soon as one counter exceeds another.", "anchors": ["starlit/src/report.rs: report", "starlit/src/state.rs: schedule_search_step"]}
{"id": "C65", "title": "Minimization leaves no redundant literal", "statement": "After clause minimization no literal of the learned clause is redundant any more: none of them follows, over the recorded reasons, from the falsification of the remaining ones.", "quantifier": "every conflict in every reachable search state", "why_tests_cant": "All implication graphs; the depth-limited recursion, the iterative fallback, the cache and the early-abort tests must together decide redundancy exactly.", "anchors": ["starlit/src/minimize.rs: minimize"]}
{"id": "C66", "title": "Memory of deleted clauses is reclaimed", "statement": "After every search step, and so between any two steps of solve() until it has found the clauses unsatisfiable, the clause arena is at most twice as large as the clauses in it that are not deleted need.", "quantifier": "every reachable search state, every history of additions, deletions and garbage collections", "why_tests_cant": "All histories: unbounded growth only shows in runs longer than any test, and depends on the count of garbage words being exact after every operation.", "anchors": ["starlit/src/prop.rs: collect_garbage", "starlit/src/clause_arena.rs: ClauseArena::should_collect_garbage, ClauseArena::collect_garbage, ClauseArena::delete_clause", "starlit/src/search.rs: search_step"]}
{"id": "C67", "title": "Bit fields packed into a word do not interfere", "statement": "A declaration with derive(Bitfield) compiles exactly if the fields have 1 to 127 bits, fit into the word together and boolean fields have one bit without clamping. Setting a field then reads back as the value, saturated (clamp) or truncated to the width, and changes neither another field nor any other bit; if all bits are used the words are ordered like their fields, last field first. The same independence holds for every bit and bit range of a clause header word.", "quantifier": "every declaration, every word and every value; every position and width in a header word", "why_tests_cant": "All declarations and values; the accessors are generated by a macro.", "anchors": ["starlit-macros/src/bitfield.rs: derive_bitfield", "starlit/src/search/reduce.rs: Score", "starlit/src/clause_arena.rs: HeaderWord"]}
{"id": "C68", "title": "Maps indexed by keys", "statement": "In a VecMap a value stored under a key is read back under that key and no other, missing keys panic, a literal reads its variable's entry; the key iterator yields exactly the keys in index order, from both ends, under every sequence of next, nth, next_back and nth_back calls, with exact counts.", "quantifier": "every key type, map contents and sequence of calls", "why_tests_cant": "All sequences of calls and sizes.", "anchors": ["starlit/src/util/vec_map.rs: VecMap, VecMapKeys", "starlit/src/lit.rs: VecMapKey, VecMapIndex", "starlit/src/prop/trail.rs: DecisionLevel, TrailIndex"]}
{"id": "C69", "title": "Variables and literals print as their DIMACS numbers", "statement": "Display and Debug of a literal print the decimal DIMACS number, which reads back as that number and determines the literal; a variable prints like its positive literal.", "quantifier": "every variable and literal", "why_tests_cant": "2^31 literals.", "anchors": ["starlit/src/lit.rs: Debug and Display for Var and Lit"]}
{"id": "C70", "title": "An answer is printed only if the proof file is complete", "statement": "When the program is given a proof file, it prints an answer only if every request to write the proof succeeded, and then the file holds the complete valid DRAT proof; if any request fails nothing is printed on standard output as a result and the exit code is that of an error. An existing file is never touched. If the input cannot be read to its end, nothing is written and nothing is answered. Without failures the result does not depend on how the writer groups the bytes.", "quantifier": "every input, both proof formats, every set of failing write requests and every part of them that is written, every buffer capacity", "why_tests_cant": "All failure points of all runs.", "anchors": ["starlit-cli/src/main.rs: main", "starlit/src/solver.rs: Solver::close_proof, Solver::write_proof", "starlit/src/proof/drat.rs: Drat, BinaryDrat"]}
{"id": "C71", "title": "The proof file of an interrupted run", "statement": "Wherever the program is interrupted while it searches, the proof file consists of complete steps that form a valid DRAT derivation from the input, followed by at most a proper part of one further step; a reader that checks the format either rejects it or reads a valid derivation. Without failures at most the content of the write buffer is missing.", "quantifier": "every reachable search state, every number of slices handed to the writer, every failure of a write request, every buffer capacity, both formats", "why_tests_cant": "All crash points.", "anchors": ["starlit/src/proof/drat.rs: Drat, BinaryDrat", "starlit/src/proof.rs: Proof"]}
{"id": "C72", "title": "Debug and release builds agree", "statement": "Whatever sequence of calls is made on a solver: if none of them panics in a build with debug assertions, then none panics in a release build, and every answer, model value, proof and statistics counter is the same in both.", "quantifier": "every sequence of add_clause, solve, value, write_proof and close_proof calls with any arguments", "why_tests_cant": "All histories; debug builds also execute additional code (resetting trail indices), so that the two builds go through different states.", "anchors": ["starlit/src/prop/trail.rs: backtrack_to_level", "starlit/src/conflict_analysis.rs: learn_and_assign", "starlit/src/solver.rs: Solver", "starlit/src/report.rs: report"]}
{"id": "C73", "title": "Proof logging does not influence the search", "statement": "Leaving out all calls that install or close a proof writer changes no answer, no value and no statistics counter; in release builds installing a writer before adding the clauses causes no panic either.", "quantifier": "every sequence of calls of the solver API, both builds", "why_tests_cant": "All histories.", "anchors": ["starlit/src/solver.rs: Solver::write_proof, Solver::close_proof", "starlit/src/conflict_analysis.rs: learn_and_assign", "starlit/src/search/reduce.rs: reduce"]}
{"id": "C74", "title": "The answer depends only on the meaning of the clauses", "statement": "Two runs give the same answer if the clauses added are equisatisfiable; in particular it depends neither on the order or repetition of clauses or of literals in them, nor on the names or signs of variables, nor on the build, on the selection algorithm of the standard library, or on whether clauses were added between searches.", "quantifier": "every pair of formulas and histories", "why_tests_cant": "All pairs of inputs (a metamorphic property).", "anchors": ["starlit/src/solver.rs: Solver::add_clause, Solver::solve"]}
{"id": "C75", "title": "Learned clauses are new", "statement": "The clause learned from a conflict has no repeated literal, contains no literal assigned at the top level, and contains no clause that is stored at that moment and no input clause as a part (those with repeated literals aside); it is then stored. So in the whole proof no addition contains a clause added before unless that was deleted in between: in particular no clause is learned twice while it is kept.", "quantifier": "every reachable conflict, and every addition of every logged proof, both builds, every selection algorithm", "why_tests_cant": "All histories.", "anchors": ["starlit/src/conflict_analysis.rs: analyze_conflict, derive_1uip_clause", "starlit/src/proof.rs: Proof"]}
{"id": "C76", "title": "The clause arena is memory safe", "statement": "Whatever sequence of safe calls is made on a clause arena, with any references (valid, deleted, from before a collection, or never returned by any call), every unchecked access stays inside the buffer and reads valid header words and literals; iterating and collecting never panic and end.", "quantifier": "every history of add, lits_mut, header_mut, shrink, delete, next and collect calls with any references, every header type and header length, every buffer size", "why_tests_cant": "The unsafe code trusts length words stored between the data; a single misplaced word in any of the reachable layouts would be undefined behaviour.", "anchors": ["starlit/src/clause_arena.rs: ClauseArena (buffer invariant), lits_unchecked_with_len, header_unchecked, shrink_clause, delete_clause, collect_garbage"]}
{"id": "C77", "title": "Reference updates after a collection are total and correct", "statement": "The map returned by a garbage collection can be applied to any reference without panic, and maps every deleted reference to None, whatever the size of the arena.", "quantifier": "every arena that safe calls can build, every reference", "why_tests_cant": "Gap offsets are stored in 32 bits while the buffer may end beyond 2^32 words.", "anchors": ["starlit/src/clause_arena.rs: ClauseArena::collect_garbage, ClauseRefGcMap::update"]}
{"id": "C78", "title": "Numbers kept in 32 bits do not wrap", "statement": "However the solver is used, every number it casts from usize to 32 bits fits: trail positions, decision levels, starts of decision levels, heap positions, the number of variables and clause references in reasons, watch lists, iterators and collections (as long as a release build is not given 3*2^30 unit clauses with repetitions); positions are also below u32::MAX, which stands for 'none'.", "quantifier": "every history of add_clause and solve calls (late clauses only if their first two literals are not false), every state the search passes through; for the arena every history of safe calls", "why_tests_cant": "A wrapped index needs an input of gigabytes, and would silently corrupt the search instead of panicking.", "anchors": ["starlit/src/prop/trail.rs: assign_raw, assign_decision, Trail::decision_level", "starlit/src/heap.rs: MaxHeap::enqueue", "starlit/src/clause_arena.rs: add_clause, next_clause"]}
{"id": "C79", "title": "The log tells the search", "statement": "The lines printed at the most verbose level tell exactly what the search did: one line for every decision with its literal, every conflict with the learned clause before minimization, every backtrack with both levels, every restart, reduction, garbage collection with the words allocated and used, and for the answer. Replaying decisions and backtracks from the lines alone gives the decisions in force at the end; the numbers of lines are the statistics the program prints; a lower level prints the same lines without those below it. All lines of the program's log are comments, so the rest of its output is the answer.", "quantifier": "every input, every reachable state, every log level, with and without source locations, both builds, every selection algorithm, every clock", "why_tests_cant": "All runs; the lines come from eleven places in the code.", "anchors": ["starlit/src/log.rs: Logger", "starlit-macros/src/log.rs", "starlit/src/search.rs: search_step, restart", "starlit/src/prop/trail.rs: backtrack_to_level", "starlit/src/conflict_analysis.rs: derive_1uip_clause", "starlit/src/search/reduce.rs: reduce", "starlit/src/prop.rs: collect_garbage_now", "starlit/src/solver.rs: solve", "starlit-cli/src/main.rs: main"]}
{"id": "C80", "title": "Logging changes nothing", "statement": "A search step, solve and the whole program give the same answer, the same state, the same exit code and the same panics whatever the log level, the clock and the paths of the source files are.", "quantifier": "every input, every reachable state, every logger", "why_tests_cant": "The arguments of an active log call are evaluated in the middle of the search, one of them can panic (the utilization of the clause arena) and the progress report computes a percentage; all runs at all levels.", "anchors": ["starlit/src/log.rs: Logger", "starlit/src/prop.rs: collect_garbage_now", "starlit/src/clause_arena.rs: utilization", "starlit/src/report.rs: report"]}
{"id": "C81", "title": "Switching minimization off keeps learned clauses asserting", "statement": "Conflict analysis with the reordering step in place of clause minimization learns the whole first-UIP clause: the literal of the conflict level first, one of the highest level among the others second; after backtracking to that level the clause is logged, stored, and propagates its first literal.", "quantifier": "every conflict above level 0 in every reachable search state, both build modes", "why_tests_cant": "All implication graphs; no build of the solver takes this branch, so no test runs it.", "anchors": ["starlit/src/conflict_analysis.rs: analyze_conflict, prepare_for_backtracking, learn_and_assign"]}
{"id": "C82", "title": "Minimization takes linear time", "statement": "The number of redundancy checks, cache writes and clean-up writes made while one learned clause is minimized is at most 8 times the number of literals in the reasons of the assigned variables plus 7 times the number of trail steps, although literals share reasons, failed checks are abandoned half way and the recursive check hands over to an iterative one.", "quantifier": "every conflict above level 0 in every reachable search state, both build modes", "why_tests_cant": "A test measures single implication graphs; without the cache, or with one unsettled result, the work doubles along a chain of shared reasons and is exponential on others.", "anchors": ["starlit/src/minimize.rs: minimize, literal_index_is_redundant_cached, literal_index_is_redundant_rec, literal_index_is_redundant_iter"]}
{"id": "C83", "title": "Propagation along a branch takes linear time", "statement": "From any search state, take any sequence of decisions, each made after propagation is complete, until a conflict or the end: all the propagations together visit at most 4 times the number of literals in the long clauses, plus twice the number of watches, plus the number of entries in the binary clause lists, counting every binary clause, watch and literal inspected. So no clause is scanned again and again from its start as its literals become false one by one. (At level 0 the trail must not list a literal twice.)", "quantifier": "every reachable search state, every sequence of decisions, both build modes", "why_tests_cant": "All clause orders and assignment orders; quadratic behaviour shows on long clauses falsified in one particular order, and a test measures one order.", "anchors": ["starlit/src/prop/unit_prop.rs: propagate, propagate_binary_clauses, propagate_long_clauses", "starlit/src/prop/long.rs: search_pos, set_search_pos", "starlit/src/prop/watch.rs: Watches"]}
{"id": "C84", "title": "Heap operations take logarithmic time", "statement": "On a heap with n entries, enqueueing makes at most 2 log2(n+1) comparisons and exchanges, increasing a value 2 log2(n), removing the maximum 3 log2(n)+1 and removing any entry 3 log2(n)+2.", "quantifier": "every heap, whatever its history and values (even one whose order was broken), every index and function", "why_tests_cant": "All sizes and value orders; a wrong child or parent computation can still give right answers in linear time.", "anchors": ["starlit/src/heap.rs: MaxHeap::enqueue, dequeue, pop_max, increase"]}
{"id": "C85", "title": "Minimization does not overflow the stack", "statement": "While a learned clause is minimized, at most 22 activations of the recursive redundancy check are on the stack at the same time, however long the chains of implications are that it follows.", "quantifier": "every implication graph, every state of the result cache, every literal", "why_tests_cant": "A stack overflow needs a chain of millions of implications, and a depth limit that is applied in the wrong place still passes tests with shorter ones.", "anchors": ["starlit/src/minimize.rs: literal_index_is_redundant_rec, literal_index_is_redundant_rec_uncached, literal_index_is_redundant_iter"]}
{"id": "C86", "title": "Deriving a clause from a conflict takes linear time", "statement": "The work of deriving the clause learned from a conflict, counted as visited assignments, visited literals and reset marks, is at most linear in the size of the conflict clause, the number of assignments and the sizes of the clauses that implied them. The activity updates of the variables involved, at most one per visited literal, are counted separately (C84).", "quantifier": "every formula, every conflict found in any state reached while solving it", "why_tests_cant": "A quadratic derivation returns the same clauses and only shows as a slowdown on inputs with long implication chains.", "anchors": ["starlit/src/conflict_analysis.rs: derive_1uip_clause, add_literal, bump_long_clause", "starlit/src/glue.rs: compute_glue"]}
{"id": "C87", "title": "Memory use stays proportional to the formula and the clauses kept", "statement": "Between any two steps of solve(), until the clauses are found unsatisfiable, the tables indexed by variables and literals have exactly one entry for each of them; the trail, the list of decisions and the queue of variables are no longer than the number of variables (plus the number of unit clauses given); the watch lists together have at most two entries for every three words that the clauses kept need; and the lists of binary clauses together have at most two entries per binary clause.", "quantifier": "every formula, every number of steps, every choice of the clauses to delete, both build modes", "why_tests_cant": "A leak (watches of deleted clauses that are never removed, a clause registered twice) gives right answers and shows only as memory use growing over long runs.", "anchors": ["starlit/src/prop/watch.rs: Watches", "starlit/src/prop/binary.rs: BinaryClauses", "starlit/src/prop.rs: Prop", "starlit/src/clause_arena.rs: ClauseArena", "starlit/src/search.rs: Search"]}
{"id": "C88", "title": "Deriving Transparent gives faithful views of the storage", "statement": "Whenever derive(Transparent) compiles for a struct, converting a value, an array, a reference or a slice to its storage type gives the first field of each element, keeps the number of elements, gives well-aligned references, and writing to one element of the storage changes that element only; converting back gives the original. References to the storage can be converted to well-aligned references to the struct.", "quantifier": "every struct (any fields, sizes, alignments and repr attributes), every value, array length, memory content and address", "why_tests_cant": "All struct declarations; a macro that accepts one declaration too many makes safe code undefined, and no test in the repository declares such a struct.", "anchors": ["starlit-macros/src/transparent.rs: derive_transparent, check_repr_args", "starlit/src/util/transparent.rs: Transparent, ConvertStorage, ConvertStorageMut", "starlit/src/clause_arena.rs: header_unchecked, header_unchecked_mut"]}
{"id": "C89", "title": "No counter overflows", "statement": "After k search steps, decisions plus conflicts, restarts and reductions are at most k, the clause counters at most k plus the number of clauses added, and propagations at most k times the number of variables and unit clauses. In the first 2^52 steps no 64-bit counter of the statistics or of the restart and reduction schedules overflows, nor do the sums computed for the next restart and the next reduction, as long as that bound on the propagations and the number of clauses fit.", "quantifier": "every formula, every history of steps and later clauses, every choice of the clauses to delete, both build modes", "why_tests_cant": "Overflows need runs of years; a schedule whose next value grows too fast would stop restarts or panic only then.", "anchors": ["starlit/src/state.rs: should_restart, should_reduce", "starlit/src/state/luby.rs: LubySequence::advance", "starlit/src/search.rs: search_step, SearchStats", "starlit/src/prop.rs: PropStats, FormulaStats", "starlit/src/prop/unit_prop.rs: propagate", "starlit/src/search/reduce.rs: reduce"]}
{"id": "C90", "title": "Garbage collection pays for itself", "statement": "The work of all garbage collections during a run, counted as words of clause memory, trail entries, watch lists and watches visited, is at most a constant times the words of clauses ever stored plus, for every reduction of the clause database, the number of variables and unit clauses. The work of the collection in a single step is linear in the clause memory, the variables and the unit clauses, and finding the new place of one clause takes logarithmically many comparisons.", "quantifier": "every formula, every history of steps and later clauses, every choice of the clauses to delete, both build modes", "why_tests_cant": "Collecting too often gives the same answers; the slowdown depends on the whole history of allocations and deletions, and shows on the formulas that no test contains.", "anchors": ["starlit/src/clause_arena.rs: collect_garbage, should_collect_garbage, find_clause, next_clause, ClauseRefGcMap", "starlit/src/prop.rs: collect_garbage_now, collect_garbage", "starlit/src/prop/trail.rs: update_clause_references", "starlit/src/prop/watch.rs: update_clause_references"]}
{"id": "C91", "title": "Bit fields of any integer type, in structs with several fields", "statement": "derive(Bitfield) accepts a struct exactly if the declarations of each attribute have 1 to 127 bits, fit into their field together and booleans have one bit without clamping. A setter then changes only the bits of its declaration, so no other field of the struct and no getter of the same attribute notices, and the getter returns a value that fits. Exceptions, each proved: a declaration covering all of a signed field is sign-extended when read, negative values are not restored, two attributes on one field overlap, and a clamped setter whose signed type has no more bits than the declaration always panics.", "quantifier": "every struct declaration with fields of signed and unsigned integer types, every value of the struct and every value passed to a setter", "why_tests_cant": "All declarations, types and values; the accessors are generated by a macro.", "anchors": ["starlit-macros/src/bitfield.rs: derive_bitfield"]}
{"id": "C92", "title": "How long solve() can take", "statement": "With m variables (in release builds that were given a unit clause twice: variables plus unit clauses), there are fewer than 2^(m+1) search steps between two restarts. Once the Luby term t of a restart has 512 t >= 2^(m+1), no further restart follows, so with at most 8 variables the restart in the first step is the only one. Every call of solve() is done after at most 2^(e+1) 2^(m+1) search steps where e is at least m - 8, and then has answered or run out of clause memory.", "quantifier": "every formula, every reachable state including those reached by adding clauses later, every choice of the clauses to delete, both build modes", "why_tests_cant": "A search that loops or restarts for ever does so only on some formulas and after long runs; a test can only observe that the formulas it contains were solved in time.", "anchors": ["starlit/src/solver.rs: solve", "starlit/src/state.rs: schedule_search_step, should_restart", "starlit/src/state/luby.rs: LubySequence::advance", "starlit/src/search.rs: search_step, restart", "starlit/src/conflict_analysis.rs: analyze_conflict", "starlit/src/prop/trail.rs: backtrack_to_level"]}
{"id": "C93", "title": "The proof, the clause database and the statistics agree", "statement": "At every moment the clauses that the proof has added and not deleted are exactly the learned clauses the solver stores, each as often, up to the order of literals: long ones in the clause memory, binary ones in the lists of binary clauses, unit ones on the trail at level zero. The other stored clauses are those of the formula. Every conflict adds one clause to the proof, except the last one when the formula has been found unsatisfiable. Only clauses of three or more literals are deleted, and stats.formula.redundant plus the number of deletions is the number of long clauses added; stats.formula.binary is the number of binary clauses in the formula and the proof.", "quantifier": "every formula, every history of elementary operations and later clauses, every choice of the clauses to delete, both build modes", "why_tests_cant": "A checker that keeps more or fewer clauses than the solver accepts the proof all the same, or fails only when a missing clause is needed much later; the counts must agree in every state of every run.", "anchors": ["starlit/src/proof.rs: add_clause, delete_clause", "starlit/src/conflict_analysis.rs: analyze_conflict", "starlit/src/search/reduce.rs: reduce", "starlit/src/prop.rs: add_clause_verbatim, FormulaStats", "starlit/src/search.rs: search_step"]}
{"id": "C94", "title": "The work of unit propagation in a whole run", "statement": "Let c, r and a be the conflicts, restarts and clauses added after the first solve() so far. All unit propagation so far has visited at most (1 + c + r + a) (n + 6 l + 4 (n + 1) c) clauses, watches and literals, where the formula has n variables and l literals. Apart from the restart in the first step there is at most one restart per 512 conflicts. So a run without conflicts takes work linear in the size of the formula, no matter how many decisions it makes, and in general the work is quadratic in the number of conflicts. (In a release build, as long as no unit clause is given twice.)", "quantifier": "every formula, every history of search steps, solve() calls and later clauses, every choice of the clauses to delete, both build modes", "why_tests_cant": "Propagation that visits clauses again and again gives the right answers, only too late; which formulas show it depends on all decisions, backtracks and saved search positions of the run.", "anchors": ["starlit/src/prop/unit_prop.rs: propagate, propagate_literal, propagate_binary_clauses, propagate_long_clauses", "starlit/src/search.rs: search_step, restart", "starlit/src/state.rs: schedule_search_step, should_restart", "starlit/src/prop/trail.rs: backtrack_to_level", "starlit/src/prop.rs: collect_garbage", "starlit/src/search/reduce.rs: reduce"]}
{"id": "C95", "title": "Results do not depend on the standard library's selection algorithm", "statement": "The clauses to delete are chosen with a selection algorithm whose arrangement of the elements the standard library leaves open. Two programs that use different implementations of it give the same answers, values and statistics for the same calls, and the state of the search is the same after every call; their proofs differ at most in the order of deletions that have no addition between them. Either both programs panic or none does.", "quantifier": "every sequence of calls of the solver API, every two implementations that meet the documented contract of select_nth_unstable, both build modes", "why_tests_cant": "A test runs with the one implementation of the installed toolchain; the algorithm has changed between releases of the standard library, and a dependence on it would only show after thousands of conflicts.", "anchors": ["starlit/src/search/reduce.rs: reduce, Score", "starlit/src/clause_arena.rs: ClauseRef, delete_clause, next_clause", "starlit/src/solver.rs: solve, add_clause, value, write_proof, close_proof", "starlit/src/state.rs: schedule_search_step"]}
{"id": "C96", "title": "The work of conflict analysis in a whole run", "statement": "However long the run, all conflict analysis together (scanning the trail, looking at the literals of the conflict and of reasons, recomputing glue, minimizing, undoing assignments and recording the learned clause) takes at most 16 (l + n c) + 27 n + 8 units per conflict, for n variables, l literals in the formula and c conflicts. Together with unit propagation the work of a run is at most 29 (1 + c) (1 + l + (n + 1) (1 + c)). The priority queue of the decision heuristic, garbage collection and the selection of clauses to delete are not counted here (see the properties on them).", "quantifier": "all formulas without repeated unit clauses or all formulas in debug builds, all histories of search steps (and late clauses), every selection algorithm", "why_tests_cant": "The bound holds because the reasons of the trail are different clauses and no literal is visited more than a constant number of times per conflict, in every state of every run; a benchmark shows neither.", "anchors": ["starlit/src/conflict_analysis.rs: analyze_conflict, derive_1uip_clause, learn_and_assign", "starlit/src/minimize.rs: minimize", "starlit/src/glue.rs: compute_glue", "starlit/src/prop/trail.rs: backtrack_to_level", "starlit/src/search.rs: search_step", "starlit/src/state.rs: schedule_search_step"]}
{"id": "C97", "title": "The work of ordering decision candidates in a whole run", "statement": "However long the run, the priority queue of decision candidates makes at most (1 + 4 c + 2 r) n (3 log2 n + 1) comparisons and exchanges in all, for n variables, c conflicts and r restarts; in terms of the conflicts alone at most (3 + 5 c) n (3 log2 n + 1). In particular removing candidates that turn out to be assigned is paid for by the assignments undone before.", "quantifier": "all formulas without repeated unit clauses or all formulas in debug builds, all histories of search steps (and late clauses), every selection algorithm", "why_tests_cant": "A decision may remove any number of assigned variables before it finds a free one, so no single step has a useful bound; the amortized one depends on the whole history.", "anchors": ["starlit/src/heap.rs: enqueue, pop_max, increase", "starlit/src/search/vsids.rs: bump_var, unassign, pop_decision_var", "starlit/src/conflict_analysis.rs: add_literal, derive_1uip_clause, analyze_conflict", "starlit/src/prop/trail.rs: backtrack_to_level", "starlit/src/search.rs: search_step, restart", "starlit/src/state.rs: schedule_search_step"]}
{"id": "C98", "title": "The work of clause database reductions in a whole run", "statement": "A reduction takes time linear in the number of assigned variables and the words of the clause memory: it looks at each assignment twice and at each word at most three times, whatever it deletes and whether or not a proof is written. Over a whole run the reductions take at most r (2 m + 3 (l + c (m + 3)) + 2) units for r reductions, c conflicts, l words of long clauses in the formula and m variables and unit clauses, and there is at most one reduction per 2000 conflicts after the first (for the first 2^28).", "quantifier": "all formulas, all histories of search steps (and late clauses), every selection algorithm that returns a permutation", "why_tests_cant": "The bound is about the memory in any reachable state and the number of reductions in any run, of which tests see a few.", "anchors": ["starlit/src/search/reduce.rs: reduce, protect_clauses", "starlit/src/clause_arena.rs: next_clause, find_clause, delete_clause", "starlit/src/state.rs: schedule_search_step, should_reduce"]}
{"id": "C99", "title": "The size of the proof", "statement": "Every step of a proof is a clause over variables of the formula in which no variable occurs twice. After k conflicts of a formula with n variables the proof has at most k additions and not more deletions than additions, and at most 2 n k literals in all. The file then has at most 2 k (2 + d n) bytes in the binary format, where d is the number of groups of seven bits a literal needs, and at most 2 k (3 + (d + 2) n) bytes in the text format, where d is the number of digits of n; with up to 2^30 variables that is at most 2 k (3 + 12 n) bytes in either format.", "quantifier": "every formula, every history of elementary operations and later clauses, every choice of the clauses to delete, both proof formats, both build modes", "why_tests_cant": "The bound is on the output of any run, however long; a test compares the proofs of a few runs.", "anchors": ["starlit/src/proof.rs: add_clause, delete_clause", "starlit/src/proof/drat.rs: Drat, BinaryDrat, write_lit", "starlit/src/conflict_analysis.rs: analyze_conflict", "starlit/src/search/reduce.rs: reduce"]}
{"id": "C100", "title": "The bounds on running times do not leave out work", "statement": "The work for which there are bounds is at least what the loops of the program do. The loops of the priority queue take at most half as many rounds as the comparisons and exchanges counted, plus one. Propagating a literal without conflict counts every binary clause and every watch of its negation; with a conflict every one up to the conflict; the search for a new watch counts every literal it looks at. The search for clauses in memory, garbage collection, the lookup of moved clauses, the scan for clauses to delete and the search for redundant literals take at most one round more than counted. A collection counts every word it keeps, every assignment, every watch list and watch; a reduction every assignment twice, every clause it deletes and every literal it writes to the proof; an analysis every literal of the derived clause and every assignment back to its asserting literal.", "quantifier": "all states, also those that no run reaches, and all arguments for which the functions return", "why_tests_cant": "A counter that is never increased satisfies every upper bound; that none leaves out rounds of a loop is about every possible execution of it.", "anchors": ["starlit/src/heap.rs: move_towards_root, move_towards_leaves, pop_max", "starlit/src/prop/unit_prop.rs: propagate_literal", "starlit/src/clause_arena.rs: find_clause, collect_garbage, ClauseRefGcMap", "starlit/src/search/reduce.rs: reduce", "starlit/src/conflict_analysis.rs: derive_1uip_clause", "starlit/src/minimize.rs: literal_index_is_redundant_rec, literal_index_is_redundant_iter"]}
{"id": "C101", "title": "The heap is safe for every type of values and every comparison", "statement": "Whatever the type of the values, whatever its comparisons answer (they may contradict each other or themselves), and whatever the functions passed to increase and apply_monotone do to the values: every call on existing indices returns, is_enqueued and indexing agree with the calls made so far, pop_max returns an enqueued index whenever there is one, and indices that do not exist are reported by a panic.", "quantifier": "all types of values, all pairs of comparison functions, all histories of calls, all functions passed in, all indices", "why_tests_cant": "The documentation promises that breaking the contract is memory safe; there is no end of wrong comparisons to test, and a loop that relies on the order to stop would run forever only for some of them.", "anchors": ["starlit/src/heap.rs: MaxHeap, resize, resize_enqueued, enqueue, dequeue, pop_max, increase, apply_monotone"]}
{"id": "C102", "title": "The running time of a whole run", "statement": "Every answer of solve for a formula with n variables and l literals, given after c conflicts and r reductions of the clause database, takes at most S C (50 (S + C) + 14 r) units of work for S = 1 + n + l and C = 1 + c: propagation, conflict analysis, the order of decisions, reductions and garbage collections together, with one unit more for every step of the search. With at most 2^28 reductions it is at most 64 S C (S + C). There are at most 1 + c + d search steps for d decisions, and at most n (1 + c + s) decisions for s restarts. In terms of the formula alone: unless the clause memory is full, every answer comes after at most T = 2^(e+1) 2^(n+1) search steps and 228 S T (S + T) units of work, where e is at least n - 8.", "quantifier": "all formulas without repeated unit clauses or all formulas in debug builds, all runs of any length, with any answer or interrupted, every selection algorithm that returns a permutation", "why_tests_cant": "A bound for all formulas and all lengths of runs; a benchmark shows the time of a few.", "anchors": ["starlit/src/solver.rs: solve", "starlit/src/state.rs: schedule_search_step", "starlit/src/search.rs: search_step, restart", "starlit/src/search/reduce.rs: reduce", "starlit/src/prop/unit_prop.rs: propagate", "starlit/src/conflict_analysis.rs: analyze_conflict", "starlit/src/heap.rs: pop_max", "starlit/src/clause_arena.rs: collect_garbage"]}
{"id": "C103", "title": "The heap survives panics of comparisons", "statement": "Whatever comparisons and the functions passed to increase and apply_monotone do (they may panic, have side effects and change values): every call on existing indices returns or passes on such a panic, the latter only if there was one. After a panic the heap can be used like before. Then enqueue has enqueued its index, dequeue has removed it, increase has not changed which indices are enqueued, pop_max has removed one enqueued index (which nobody receives), a change of the size has removed or enqueued an initial part of the indices concerned, and apply_monotone has changed exactly the values of the indices before the one it panicked for; is_enqueued answers accordingly, and panics exactly for indices that do not exist.", "quantifier": "all behaviours of comparisons and functions, all histories of calls with any number of panics, all indices", "why_tests_cant": "A panic may happen in any comparison of any call in any history; after it, the invariants that the code relies on have to hold again.", "anchors": ["starlit/src/heap.rs: MaxHeap, resize, resize_enqueued, enqueue, dequeue, pop_max, increase, apply_monotone, move_towards_root, move_towards_leaves"]}
{"id": "C104", "title": "The heap survives panics of clone", "statement": "If the clone of a value panics while resize adds new indices, the heap can be used like before for every index below len(): is_enqueued and enqueue answer, and the heap can be made smaller or larger again.", "quantifier": "all heaps, all sizes, every call of clone that may panic", "why_tests_cant": "Whether the vectors that make up the heap agree after a panic depends on the order of updates, at every point where a panic may happen.", "anchors": ["starlit/src/heap.rs: resize, is_enqueued, dequeue_usize"]}
{"id": "C105", "title": "The heap survives panics of destructors", "statement": "If the destructor of a value panics while resize makes the heap smaller, the heap is the same as after a resize that returns: calls for every index below len(), pop_max and further changes of the size have the same effects, and calls for other indices panic and change nothing.", "quantifier": "all heaps, all behaviours of comparisons, all sizes, all further calls", "why_tests_cant": "Whether the vectors that make up the heap agree after a panic depends on the order of updates, and a difference may show only after further calls.", "anchors": ["starlit/src/heap.rs: resize, enqueue_usize, is_enqueued, move_towards_root"]}
