{
 "claims": [
  {
   "property": "C01",
   "status": "proved",
   "theorems": [
    "solve_true_model",
    "solve_true_satisfies"
   ],
   "note": "For every sequence of added clauses, both build modes, any select_nth_unstable."
  },
  {
   "property": "C02",
   "status": "proved",
   "theorems": [
    "solve_false_unsat"
   ],
   "note": ""
  },
  {
   "property": "C03",
   "status": "proved",
   "theorems": [
    "solve_terminates",
    "solve_terminates_in_bounds"
   ],
   "note": "Unbounded counters; a run that does not return ends with the documented arena-full panic, and then a reachable state has a full arena."
  },
  {
   "property": "C04",
   "status": "proved",
   "theorems": [
    "solve_no_panic",
    "step_no_panic",
    "value_no_panic"
   ],
   "note": ""
  },
  {
   "property": "C05",
   "status": "proved",
   "theorems": [
    "value_total_consistent"
   ],
   "note": ""
  },
  {
   "property": "C06",
   "status": "proved",
   "theorems": [
    "solve_repeatable"
   ],
   "note": ""
  },
  {
   "property": "C07",
   "status": "partial",
   "theorems": [
    "incremental_refuted",
    "incremental_after_unsat_partial",
    "incremental_watchable_partial"
   ],
   "note": "False of the code: adding a clause after a SAT answer can give a wrong UNSAT and a wrong SAT answer (two concrete runs). Proved for any clauses added after an UNSAT answer, and for any interleaving of searches and additions when each late clause is empty or has two leading literals that value() does not report false (clauses on new variables, clauses satisfied by their first literals). The reachable states of all other solver theorems include such late additions."
  },
  {
   "property": "C08",
   "status": "partial",
   "theorems": [
    "add_clause_accepts_partial",
    "add_clause_accepts_release",
    "add_clause_late_accepts",
    "add_clause_accepts_refuted"
   ],
   "note": "False of debug builds: a repeated unit clause trips a debug_assert. Proved for release builds, and for debug builds exactly up to that case; after searches proved for clauses whose first two literals are not false."
  },
  {
   "property": "C09",
   "status": "proved",
   "theorems": [
    "proof_additions_rup"
   ],
   "note": ""
  },
  {
   "property": "C10",
   "status": "proved",
   "theorems": [
    "proof_refutes",
    "proof_refutes_again",
    "drat_refutation_sound"
   ],
   "note": ""
  },
  {
   "property": "C100",
   "status": "proved",
   "theorems": [
    "queue_fair",
    "propagation_fair",
    "collect_fair",
    "reduce_fair",
    "analysis_fair",
    "minimize_fair"
   ],
   "note": "For single loops and operations; the counters of whole runs are their sums."
  },
  {
   "property": "C101",
   "status": "proved",
   "theorems": [
    "any_heap_exact",
    "any_heap_total",
    "heap_instance"
   ],
   "note": "Comparisons are pure functions that do not panic. heap_instance: for natural numbers the model is that of C33, C34 and C84. What pop_max returns for an order that keeps its contract is part of C33 (any_heap_max_partial)."
  },
  {
   "property": "C102",
   "status": "proved",
   "theorems": [
    "counted_total",
    "steps_bounded",
    "total_work",
    "total_cubic",
    "worst_case"
   ],
   "note": "Work is counted by the counters of C90, C94, C96, C97 and C98, which C100 compares with the loops of the program. total_cubic rests on Flocq for the schedule of reductions. Releases with a repeated unit clause are left out."
  },
  {
   "property": "C103",
   "status": "proved",
   "theorems": [
    "panic_safe",
    "panic_resize",
    "apply_panic",
    "apply_pure",
    "pure_instance"
   ],
   "note": "Cloning and dropping values is assumed not to panic (see C104 and C105). pure_instance and apply_pure: with comparisons and functions that are pure functions of the values the calls are those of C101."
  },
  {
   "property": "C104",
   "status": "partial",
   "theorems": [
    "clone_panic_refuted",
    "clone_panic_partial",
    "clone_panic_calls_partial"
   ],
   "note": "The code violates the claim: heap.rs 63 lengthens the values before line 64 lengthens the positions, so after a panic in between len() counts indices for which is_enqueued and enqueue panic, and making the heap smaller panics (clone_panic_refuted). The old indices still work, and making the heap at least as large as len() repairs it (clone_panic_partial). clone_panic_calls_partial: every call for an old index and pop_max do the same as without the panic, and making the heap smaller never succeeds."
  },
  {
   "property": "C105",
   "status": "partial",
   "theorems": [
    "drop_panic_refuted",
    "drop_panic_partial",
    "drop_panic_calls_partial",
    "pushed_is_enqueue"
   ],
   "note": "The code violates the claim for indices that no longer exist: heap.rs 63 shortens the values before line 64 shortens the positions, so after a panic in between is_enqueued answers for such an index, and enqueue panics only after it has enqueued it, so that later calls for indices that exist panic (drop_panic_refuted; pushed_is_enqueue justifies the heap it leaves behind). For existing indices, pop_max and changes of the size the claim holds (drop_panic_partial, drop_panic_calls_partial)."
  },
  {
   "property": "C11",
   "status": "proved",
   "theorems": [
    "proof_deletions_sound"
   ],
   "note": ""
  },
  {
   "property": "C12",
   "status": "partial",
   "theorems": [
    "proof_ends_empty_partial",
    "proof_ends_empty_refuted"
   ],
   "note": "False of the code: the empty clause is never logged. Proved: appending it would give a valid proof."
  },
  {
   "property": "C13",
   "status": "proved",
   "theorems": [
    "bdrat_decodes"
   ],
   "note": "Bytes decode with an independent binary DRAT reader to exactly the logged steps."
  },
  {
   "property": "C14",
   "status": "proved",
   "theorems": [
    "drat_decodes"
   ],
   "note": "Text decodes with an independent tokenizer/parser to exactly the logged steps."
  },
  {
   "property": "C15",
   "status": "proved",
   "theorems": [
    "trail_reasons",
    "trail_units",
    "trail_implied"
   ],
   "note": "For any schedule of the search operations."
  },
  {
   "property": "C16",
   "status": "proved",
   "theorems": [
    "propagate_complete",
    "propagate_complete_words",
    "propagate_complete_input"
   ],
   "note": ""
  },
  {
   "property": "C17",
   "status": "proved",
   "theorems": [
    "propagate_conflict",
    "propagate_extends"
   ],
   "note": ""
  },
  {
   "property": "C18",
   "status": "proved",
   "theorems": [
    "backtrack_exact"
   ],
   "note": ""
  },
  {
   "property": "C19",
   "status": "proved",
   "theorems": [
    "learned_asserting",
    "analyze_succeeds"
   ],
   "note": ""
  },
  {
   "property": "C20",
   "status": "proved",
   "theorems": [
    "learned_implied",
    "stored_implied",
    "drat_addition_sound"
   ],
   "note": "All stored clauses (learned or not) and all logged additions."
  },
  {
   "property": "C21",
   "status": "proved",
   "theorems": [
    "first_uip_clause",
    "minimize_sound"
   ],
   "note": ""
  },
  {
   "property": "C22",
   "status": "proved",
   "theorems": [
    "scratch_clean"
   ],
   "note": ""
  },
  {
   "property": "C23",
   "status": "proved",
   "theorems": [
    "glue_counts_levels"
   ],
   "note": ""
  },
  {
   "property": "C24",
   "status": "proved",
   "theorems": [
    "arena_contents",
    "arena_add_reads_back",
    "arena_add_refuses",
    "arena_write_local"
   ],
   "note": "For every header length and every history of arena calls."
  },
  {
   "property": "C25",
   "status": "proved",
   "theorems": [
    "arena_delete_only"
   ],
   "note": ""
  },
  {
   "property": "C26",
   "status": "proved",
   "theorems": [
    "arena_iterate_all",
    "arena_next_after"
   ],
   "note": ""
  },
  {
   "property": "C27",
   "status": "proved",
   "theorems": [
    "arena_collect_preserves"
   ],
   "note": "The buffer must hold fewer than 2^32 words: the code truncates gap offsets to u32."
  },
  {
   "property": "C28",
   "status": "proved",
   "theorems": [
    "arena_invalid_detected",
    "arena_contents"
   ],
   "note": ""
  },
  {
   "property": "C29",
   "status": "proved",
   "theorems": [
    "arena_shrink_prefix",
    "arena_shrink_panics",
    "long_hook_ok"
   ],
   "note": ""
  },
  {
   "property": "C30",
   "status": "partial",
   "theorems": [
    "shrink_search_pos_partial",
    "shrink_search_pos_refuted"
   ],
   "note": "The property is false of the code (long.rs 30 compares with the new length instead of the new length minus two); refuted with a concrete out-of-bounds panic, and proved for the remaining positions."
  },
  {
   "property": "C31",
   "status": "partial",
   "theorems": [
    "utilization_exact_partial",
    "utilization_exact_refuted",
    "utilization_again",
    "again_counted"
   ],
   "note": "False of the code when a clause is deleted twice (counted twice); proved for histories without double deletion. utilization_again gives the value for all histories: every repeated deletion since the last collection takes away one header and length word, with underflow exactly when that exceeds the live words."
  },
  {
   "property": "C32",
   "status": "proved",
   "theorems": [
    "header_set_redundant",
    "header_set_protected",
    "header_set_glue",
    "header_set_used",
    "header_set_search_pos",
    "header_new"
   ],
   "note": "Values of type usize above 2^32 are truncated by the code and excluded."
  },
  {
   "property": "C33",
   "status": "partial",
   "theorems": [
    "pop_max_maximum_partial",
    "any_heap_max_partial",
    "pop_max_maximum_refuted"
   ],
   "note": "False of the code after dequeue (heap.rs 117 compares the wrong way round); proved for histories without dequeue and shrinking, the only ones the solver makes; for any type of values with a lawful order in any_heap_max_partial."
  },
  {
   "property": "C34",
   "status": "proved",
   "theorems": [
    "heap_membership_exact",
    "heap_no_panic"
   ],
   "note": ""
  },
  {
   "property": "C35",
   "status": "proved",
   "theorems": [
    "decision_var_ok"
   ],
   "note": ""
  },
  {
   "property": "C36",
   "status": "proved",
   "theorems": [
    "luby_correct",
    "luby_spec_functional",
    "luby_wide_agrees"
   ],
   "note": "Exact 64-bit counters; n + 1 < 2^64."
  },
  {
   "property": "C37",
   "status": "proved",
   "theorems": [
    "restart_schedule",
    "restart_first",
    "restart_effect"
   ],
   "note": "The Luby sequence and the conflict counter are unbounded in the model (64-bit in the code)."
  },
  {
   "property": "C38",
   "status": "proved",
   "theorems": [
    "lit_from_dimacs_spec",
    "lit_dimacs_roundtrip",
    "lit_from_code_spec",
    "lit_from_index_spec",
    "lit_index_roundtrip",
    "lit_not_spec",
    "lit_limits",
    "var_dimacs_roundtrip",
    "lit_unchecked",
    "lit_order"
   ],
   "note": ""
  },
  {
   "property": "C39",
   "status": "proved",
   "theorems": [
    "select_other_spec"
   ],
   "note": ""
  },
  {
   "property": "C40",
   "status": "proved",
   "theorems": [
    "pa_is_map"
   ],
   "note": ""
  },
  {
   "property": "C41",
   "status": "partial",
   "theorems": [
    "mutscan_filter_map_partial",
    "mutscan_refines",
    "mutscan_zero_sized_refuted"
   ],
   "note": "Slot-level model; uninitialized reads are panics. Proved for all item types with a size of at least one byte. Refuted for zero-sized types: the scan takes the vector for empty, and dropping it panics in offset_from."
  },
  {
   "property": "C42",
   "status": "proved",
   "theorems": [
    "reduce_deletes_worst",
    "input_kept"
   ],
   "note": ""
  },
  {
   "property": "C43",
   "status": "proved",
   "theorems": [
    "score_lexicographic",
    "header_field_bounds"
   ],
   "note": ""
  },
  {
   "property": "C44",
   "status": "proved",
   "theorems": [
    "stats_count",
    "reduce_deletes_worst"
   ],
   "note": ""
  },
  {
   "property": "C45",
   "status": "partial",
   "theorems": [
    "fixed_var_count_partial",
    "fixed_vars_exact_partial",
    "fixed_vars_bound_partial",
    "fixed_vars_exact",
    "units_first",
    "debug_no_repeats",
    "fixed_vars_refuted"
   ],
   "note": "Holds in debug builds and, in release builds, if no unit clause is added twice. Refuted otherwise: a unit clause added twice is counted twice. fixed_vars_exact covers all histories: the statistic is the number of distinct variables plus the number of repeated unit clauses (none in debug builds)."
  },
  {
   "property": "C46",
   "status": "proved",
   "theorems": [
    "phase_saved",
    "decision_phase",
    "history_exists"
   ],
   "note": ""
  },
  {
   "property": "C47",
   "status": "proved",
   "theorems": [
    "watch_cycle"
   ],
   "note": ""
  },
  {
   "property": "C48",
   "status": "proved",
   "theorems": [
    "cli_model",
    "cli_prints"
   ],
   "note": "The DIMACS parser is not modelled: the theorem assumes what it checks, that the literals are those of declared variables."
  },
  {
   "property": "C49",
   "status": "partial",
   "theorems": [
    "exit_code_partial",
    "exit_code_refuted"
   ],
   "note": "Refuted: the program exits with 20 in both cases. Proved: unsatisfiable formulas give 20."
  },
  {
   "property": "C50",
   "status": "proved",
   "theorems": [
    "activities_finite",
    "key_order",
    "bump_keeps_order",
    "decay_keeps_order",
    "search_history",
    "f32_bits_ieee",
    "f32_arith_ieee"
   ],
   "note": "Uses the standard library's axioms of the real numbers (through Flocq's theory of rounding)."
  },
  {
   "property": "C51",
   "status": "partial",
   "theorems": [
    "propagations_partial",
    "propagations_refuted"
   ],
   "note": "Refuted: literals completed by a propagation that ends in a conflict are not counted. Proved: the statistic counts those of all other propagations."
  },
  {
   "property": "C52",
   "status": "proved",
   "theorems": [
    "counters_exact",
    "history_exists"
   ],
   "note": ""
  },
  {
   "property": "C53",
   "status": "proved",
   "theorems": [
    "decision_max_activity"
   ],
   "note": "Uses the standard library's axioms of the real numbers (through Flocq's theory of rounding)."
  },
  {
   "property": "C54",
   "status": "proved",
   "theorems": [
    "reduce_schedule",
    "reduce_interval_exact",
    "f64_ieee"
   ],
   "note": "Uses the standard library's axioms of the real numbers (through Flocq's theory of rounding)."
  },
  {
   "property": "C55",
   "status": "proved",
   "theorems": [
    "conflict_bumps",
    "conflict_activities"
   ],
   "note": "conflict_activities gives the activities in numbers if no rescaling is due; conflict_bumps holds always."
  },
  {
   "property": "C56",
   "status": "proved",
   "theorems": [
    "clause_bumps"
   ],
   "note": ""
  },
  {
   "property": "C57",
   "status": "proved",
   "theorems": [
    "learned_header"
   ],
   "note": ""
  },
  {
   "property": "C58",
   "status": "proved",
   "theorems": [
    "first_uip_exact"
   ],
   "note": ""
  },
  {
   "property": "C59",
   "status": "proved",
   "theorems": [
    "implied_level"
   ],
   "note": ""
  },
  {
   "property": "C60",
   "status": "proved",
   "theorems": [
    "step_effect_exact",
    "restart_effect"
   ],
   "note": ""
  },
  {
   "property": "C61",
   "status": "proved",
   "theorems": [
    "cli_proof_file"
   ],
   "note": "File handling and buffering are not modelled: the proof is the sequence of bytes handed to the writer."
  },
  {
   "property": "C62",
   "status": "proved",
   "theorems": [
    "cli_answers"
   ],
   "note": "The DIMACS parser is not modelled."
  },
  {
   "property": "C63",
   "status": "proved",
   "theorems": [
    "log_filter",
    "log_transparent",
    "cli_output_readable",
    "cli_verbosity",
    "log_macro_text",
    "log_configured"
   ],
   "note": "Messages are given by their formatted pieces; assumed free of line ends."
  },
  {
   "property": "C64",
   "status": "partial",
   "theorems": [
    "report_exact_partial",
    "report_release",
    "report_filter",
    "report_exact_refuted"
   ],
   "note": "Holds in debug builds and, in release builds, if no unit clause is added twice. Refuted otherwise: the subtraction wraps around and the report shows 2^64 - 1 variables left. report_release says what release builds print for any statistics."
  },
  {
   "property": "C65",
   "status": "proved",
   "theorems": [
    "minimize_complete"
   ],
   "note": ""
  },
  {
   "property": "C66",
   "status": "proved",
   "theorems": [
    "step_reclaims",
    "memory_bounded"
   ],
   "note": ""
  },
  {
   "property": "C67",
   "status": "proved",
   "theorems": [
    "bitfield_accepts",
    "bitfield_set",
    "bitfield_order",
    "score_is_bitfield",
    "header_word_field",
    "header_word_bit"
   ],
   "note": "For unsigned field and accessor types and one attribute per word; the attribute parser is not modelled."
  },
  {
   "property": "C68",
   "status": "proved",
   "theorems": [
    "vecmap_key_index",
    "vecmap_get_set",
    "vecmap_keys",
    "vecmap_keys_panic"
   ],
   "note": ""
  },
  {
   "property": "C69",
   "status": "proved",
   "theorems": [
    "display_lit",
    "display_var"
   ],
   "note": "Without formatting options."
  },
  {
   "property": "C70",
   "status": "proved",
   "theorems": [
    "answer_implies_proof",
    "failed_run_detected",
    "proof_not_overwritten",
    "input_error_writes_nothing",
    "no_failure_no_difference"
   ],
   "note": "flussab::DeferredWriter is modelled after its documentation. Errors on standard output are not modelled."
  },
  {
   "property": "C71",
   "status": "proved",
   "theorems": [
    "interrupted_proof",
    "buffered_loss"
   ],
   "note": "Interruptions during the search; an interruption inside a write request is a failing request."
  },
  {
   "property": "C72",
   "status": "proved",
   "theorems": [
    "builds_agree"
   ],
   "note": "For the debug assertions and overflow checks that are modelled (see DESIGN.md)."
  },
  {
   "property": "C73",
   "status": "proved",
   "theorems": [
    "proof_writer_passive",
    "proof_writer_same_run"
   ],
   "note": ""
  },
  {
   "property": "C74",
   "status": "proved",
   "theorems": [
    "answer_semantic",
    "answer_order",
    "answer_renaming"
   ],
   "note": ""
  },
  {
   "property": "C75",
   "status": "proved",
   "theorems": [
    "learned_new",
    "proof_additions_new"
   ],
   "note": ""
  },
  {
   "property": "C76",
   "status": "proved",
   "theorems": [
    "arena_memory_safe"
   ],
   "note": "Calls that panic are taken to change nothing; a panic inside a header's own shrink_clause is not modelled."
  },
  {
   "property": "C77",
   "status": "partial",
   "theorems": [
    "gc_map_total_partial",
    "gc_map_search_partial",
    "arena_collect_preserves",
    "gc_map_overflow_refuted"
   ],
   "note": "Proved for buffers below 2^32 words. Refuted beyond: add_clause only checks where a clause starts, so the buffer can end past 2^32 words, the offset of the end of the last gap is truncated and a deleted last clause is mapped to a live-looking reference."
  },
  {
   "property": "C78",
   "status": "proved",
   "theorems": [
    "indices_fit",
    "arena_refs_fit",
    "arena_iterate_fits",
    "repeated_units_overflow"
   ],
   "note": "repeated_units_overflow shows that the bound on repeated unit clauses is needed: without it the cast does truncate."
  },
  {
   "property": "C79",
   "status": "proved",
   "theorems": [
    "step_told",
    "solve_told",
    "cli_told"
   ],
   "note": "The text of the progress reports is C64; durations and quotients are formatted by the standard library and are parameters."
  },
  {
   "property": "C80",
   "status": "proved",
   "theorems": [
    "step_passive",
    "solve_passive",
    "cli_passive"
   ],
   "note": ""
  },
  {
   "property": "C81",
   "status": "proved",
   "theorems": [
    "analyze_with_minimization",
    "prepare_reorders",
    "plain_learned_asserting",
    "plain_analyze_succeeds"
   ],
   "note": "The call is in a dead branch of analyze_conflict (if true); the model makes the constant a parameter."
  },
  {
   "property": "C82",
   "status": "proved",
   "theorems": [
    "counted_minimize",
    "minimize_linear"
   ],
   "note": "Sorting and reversing the clause are not counted."
  },
  {
   "property": "C83",
   "status": "proved",
   "theorems": [
    "counted_propagate",
    "branch_linear"
   ],
   "note": "Work = binary clauses visited + watches visited + literals inspected by the circular search. Building the watch lists after they were disabled and copying list entries are not counted."
  },
  {
   "property": "C84",
   "status": "proved",
   "theorems": [
    "counted_heap",
    "heap_logarithmic"
   ],
   "note": "Work = comparisons of values + exchanges of entries; resizing is not counted."
  },
  {
   "property": "C85",
   "status": "proved",
   "theorems": [
    "counted_frames",
    "frames_bounded",
    "frames_exact"
   ],
   "note": "That the check ends and gives the right answer is part of C21, C65 and C82."
  },
  {
   "property": "C86",
   "status": "proved",
   "theorems": [
    "counted_derive",
    "derive_linear"
   ],
   "note": "What is derived is C65; the work of minimizing it is C82."
  },
  {
   "property": "C87",
   "status": "proved",
   "theorems": [
    "tables_bounded"
   ],
   "note": "The clause arena itself is C66. Allocated capacity beyond the length of a vector and the scratch buffers of conflict analysis are not modelled."
  },
  {
   "property": "C88",
   "status": "partial",
   "theorems": [
    "struct_layout_sound",
    "transparent_values",
    "transparent_arrays",
    "transparent_refs",
    "transparent_accepts",
    "transparent_used",
    "transparent_from_partial",
    "transparent_from_refuted"
   ],
   "note": "Proved except for the last sentence, which is false: a repr(C) struct with a second field of size 0 and a larger alignment compiles, and the clause arena then hands out misaligned references to headers of that type through its safe API. It holds when no field needs a larger alignment than the first, as for all types of this code base."
  },
  {
   "property": "C89",
   "status": "proved",
   "theorems": [
    "counters_bounded",
    "counters_fit"
   ],
   "note": "Uses the standard library's axioms of the real numbers (through Flocq's theory of rounding)."
  },
  {
   "property": "C90",
   "status": "partial",
   "theorems": [
    "counted_collect",
    "counted_schedule",
    "collect_linear",
    "collect_amortized_partial",
    "memory_in_use",
    "collect_quadratic",
    "collect_amortized_refuted",
    "lookup_logarithmic"
   ],
   "note": "collect_amortized_partial has an extra term: the steps taken while no long clause is stored. It cannot be dropped (collect_amortized_refuted): should_collect_garbage holds for an empty clause memory (0 >= 0), so every such step visits the trail and all watch lists, and solving a single unit clause for variable i takes quadratic work (collect_quadratic). memory_in_use: the term does not grow once a clause of three literals has been added."
  },
  {
   "property": "C91",
   "status": "partial",
   "theorems": [
    "bitfield_accepted",
    "bitfield_any_type_partial",
    "bitfield_reads_back_partial",
    "bitfield_clamp_panics",
    "bitfield_full_signed_refuted",
    "bitfield_negative_refuted",
    "bitfield_two_attributes_refuted"
   ],
   "note": "Reading back is proved except for declarations covering all of a signed field, and independence for accessors of different fields and of the same attribute. The rest is refuted by concrete structs, and the setters that always panic are characterised."
  },
  {
   "property": "C92",
   "status": "proved",
   "theorems": [
    "steps_between_restarts",
    "last_restart",
    "solve_step_bound"
   ],
   "note": "The bound is exponential, as it must be for a bound that holds for every formula. It makes solve_terminates (C03) explicit: the levels along the trail, read as a number, grow with every step that does not restart."
  },
  {
   "property": "C93",
   "status": "proved",
   "theorems": [
    "proof_matches_clauses",
    "proof_size"
   ],
   "note": ""
  },
  {
   "property": "C94",
   "status": "proved",
   "theorems": [
    "counted_run",
    "restarts_bounded",
    "propagation_work",
    "propagation_quadratic",
    "propagation_linear"
   ],
   "note": "The hypothesis on unit clauses excludes release builds that were given the same unit clause twice (see C08)."
  },
  {
   "property": "C95",
   "status": "proved",
   "theorems": [
    "selection_order_irrelevant",
    "selection_order_state",
    "reordered_prefix"
   ],
   "note": "The contract of select_nth_unstable is select_ok for the derived order of (score, reference) pairs. The kind of a panic is not compared."
  },
  {
   "property": "C96",
   "status": "proved",
   "theorems": [
    "counted_analysis",
    "analysis_work",
    "run_quadratic",
    "counted_both"
   ],
   "note": "The hypothesis on unit clauses is that of C94. The counters leave out the priority queue (C84), garbage collection (C90) and reductions."
  },
  {
   "property": "C97",
   "status": "proved",
   "theorems": [
    "counted_queue",
    "queue_work",
    "queue_conflicts"
   ],
   "note": "The hypothesis on unit clauses is that of C94. Rescaling the activities makes no comparisons and is not counted, nor is inserting new variables when a clause is added."
  },
  {
   "property": "C98",
   "status": "proved",
   "theorems": [
    "counted_reductions",
    "reduction_once",
    "reduction_linear",
    "reduction_work",
    "reductions_bounded",
    "reduction_quadratic"
   ],
   "note": "select_nth_unstable counts as one unit per candidate, as its documentation promises. The bounds on the number of reductions use the exactness of the schedule up to 2^28 reductions (C54) and so the axioms of the real numbers."
  },
  {
   "property": "C99",
   "status": "proved",
   "theorems": [
    "proof_bounded",
    "proof_file_size",
    "proof_file_any"
   ],
   "note": "In every state between the elementary operations of a run."
  }
 ]
}