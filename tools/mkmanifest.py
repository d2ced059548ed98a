#!/usr/bin/env python3
"""Write MANIFEST.json from the table below."""
import json, re, glob, os
here = os.path.dirname(os.path.dirname(os.path.abspath(__file__)))
claims = []
def c(p, status, thms, note): claims.append(dict(property=p, status=status, theorems=thms.split(), note=note))

c("C01", "proved", "solve_true_model solve_true_satisfies", "For every sequence of added clauses, both build modes, any select_nth_unstable.")
c("C02", "proved", "solve_false_unsat", "")
c("C03", "proved", "solve_terminates solve_terminates_in_bounds", "Unbounded counters; a run that does not return ends with the documented arena-full panic, and then a reachable state has a full arena.")
c("C04", "proved", "solve_no_panic step_no_panic value_no_panic", "")
c("C05", "proved", "value_total_consistent", "")
c("C06", "proved", "solve_repeatable", "")
c("C07", "partial", "incremental_refuted incremental_after_unsat_partial incremental_watchable_partial", "False of the code: adding a clause after a SAT answer can give a wrong UNSAT and a wrong SAT answer (two concrete runs). Proved for any clauses added after an UNSAT answer, and for any interleaving of searches and additions when each late clause is empty or has two leading literals that value() does not report false (clauses on new variables, clauses satisfied by their first literals). The reachable states of all other solver theorems include such late additions.")
c("C08", "partial", "add_clause_accepts_partial add_clause_accepts_release add_clause_late_accepts add_clause_accepts_refuted", "False of debug builds: a repeated unit clause trips a debug_assert. Proved for release builds, and for debug builds exactly up to that case; after searches proved for clauses whose first two literals are not false.")
c("C09", "proved", "proof_additions_rup", "")
c("C10", "proved", "proof_refutes proof_refutes_again drat_refutation_sound", "")
c("C11", "proved", "proof_deletions_sound", "")
c("C12", "partial", "proof_ends_empty_partial proof_ends_empty_refuted", "False of the code: the empty clause is never logged. Proved: appending it would give a valid proof.")
c("C20", "proved", "learned_implied stored_implied drat_addition_sound", "All stored clauses (learned or not) and all logged additions.")
c("C13", "proved", "bdrat_decodes", "Bytes decode with an independent binary DRAT reader to exactly the logged steps.")
c("C14", "proved", "drat_decodes", "Text decodes with an independent tokenizer/parser to exactly the logged steps.")
c("C32", "proved", "header_set_redundant header_set_protected header_set_glue header_set_used header_set_search_pos header_new", "Values of type usize above 2^32 are truncated by the code and excluded.")
c("C24", "proved", "arena_contents arena_add_reads_back arena_add_refuses arena_write_local", "For every header length and every history of arena calls.")
c("C25", "proved", "arena_delete_only", "")
c("C26", "proved", "arena_iterate_all arena_next_after", "")
c("C27", "proved", "arena_collect_preserves", "The buffer must hold fewer than 2^32 words: the code truncates gap offsets to u32.")
c("C28", "proved", "arena_invalid_detected arena_contents", "")
c("C29", "proved", "arena_shrink_prefix arena_shrink_panics long_hook_ok", "")
c("C30", "partial", "shrink_search_pos_partial shrink_search_pos_refuted", "The property is false of the code (long.rs 30 compares with the new length instead of the new length minus two); refuted with a concrete out-of-bounds panic, and proved for the remaining positions.")
c("C31", "partial", "utilization_exact_partial utilization_exact_refuted utilization_again again_counted", "False of the code when a clause is deleted twice (counted twice); proved for histories without double deletion. utilization_again gives the value for all histories: every repeated deletion since the last collection takes away one header and length word, with underflow exactly when that exceeds the live words.")
c("C33", "partial", "pop_max_maximum_partial any_heap_max_partial pop_max_maximum_refuted", "False of the code after dequeue (heap.rs 117 compares the wrong way round); proved for histories without dequeue and shrinking, the only ones the solver makes; for any type of values with a lawful order in any_heap_max_partial.")
c("C34", "proved", "heap_membership_exact heap_no_panic", "")
c("C35", "proved", "decision_var_ok", "")
c("C36", "proved", "luby_correct luby_spec_functional luby_wide_agrees", "Exact 64-bit counters; n + 1 < 2^64.")
c("C37", "proved", "restart_schedule restart_first restart_effect", "The Luby sequence and the conflict counter are unbounded in the model (64-bit in the code).")
c("C38", "proved", "lit_from_dimacs_spec lit_dimacs_roundtrip lit_from_code_spec lit_from_index_spec lit_index_roundtrip lit_not_spec lit_limits var_dimacs_roundtrip lit_unchecked lit_order", "")
c("C39", "proved", "select_other_spec", "")
c("C40", "proved", "pa_is_map", "")
c("C41", "partial", "mutscan_filter_map_partial mutscan_refines mutscan_zero_sized_refuted", "Slot-level model; uninitialized reads are panics. Proved for all item types with a size of at least one byte. Refuted for zero-sized types: the scan takes the vector for empty, and dropping it panics in offset_from.")
c("C42", "proved", "reduce_deletes_worst input_kept", "")
c("C43", "proved", "score_lexicographic header_field_bounds", "")
c("C15", "proved", "trail_reasons trail_units trail_implied", "For any schedule of the search operations.")
c("C16", "proved", "propagate_complete propagate_complete_words propagate_complete_input", "")
c("C17", "proved", "propagate_conflict propagate_extends", "")
c("C18", "proved", "backtrack_exact", "")
c("C19", "proved", "learned_asserting analyze_succeeds", "")
c("C21", "proved", "first_uip_clause minimize_sound", "")
c("C22", "proved", "scratch_clean", "")
c("C23", "proved", "glue_counts_levels", "")

c("C44", "proved", "stats_count reduce_deletes_worst", "")
c("C45", "partial", "fixed_var_count_partial fixed_vars_exact_partial fixed_vars_bound_partial fixed_vars_exact units_first debug_no_repeats fixed_vars_refuted", "Holds in debug builds and, in release builds, if no unit clause is added twice. Refuted otherwise: a unit clause added twice is counted twice. fixed_vars_exact covers all histories: the statistic is the number of distinct variables plus the number of repeated unit clauses (none in debug builds).")
c("C46", "proved", "phase_saved decision_phase history_exists", "")
c("C47", "proved", "watch_cycle", "")
c("C48", "proved", "cli_model cli_prints", "The DIMACS parser is not modelled: the theorem assumes what it checks, that the literals are those of declared variables.")
c("C49", "partial", "exit_code_partial exit_code_refuted", "Refuted: the program exits with 20 in both cases. Proved: unsatisfiable formulas give 20.")
c("C51", "partial", "propagations_partial propagations_refuted", "Refuted: literals completed by a propagation that ends in a conflict are not counted. Proved: the statistic counts those of all other propagations.")
c("C52", "proved", "counters_exact history_exists", "")
c("C50", "proved", "activities_finite key_order bump_keeps_order decay_keeps_order search_history f32_bits_ieee f32_arith_ieee", "Uses the standard library's axioms of the real numbers (through Flocq's theory of rounding).")
c("C53", "proved", "decision_max_activity", "Uses the standard library's axioms of the real numbers (through Flocq's theory of rounding).")
c("C54", "proved", "reduce_schedule reduce_interval_exact f64_ieee", "Uses the standard library's axioms of the real numbers (through Flocq's theory of rounding).")
c("C55", "proved", "conflict_bumps conflict_activities", "conflict_activities gives the activities in numbers if no rescaling is due; conflict_bumps holds always.")
c("C56", "proved", "clause_bumps", "")
c("C57", "proved", "learned_header", "")
c("C58", "proved", "first_uip_exact", "")
c("C59", "proved", "implied_level", "")
c("C60", "proved", "step_effect_exact restart_effect", "")
c("C61", "proved", "cli_proof_file", "File handling and buffering are not modelled: the proof is the sequence of bytes handed to the writer.")
c("C62", "proved", "cli_answers", "The DIMACS parser is not modelled.")
c("C63", "proved", "log_filter log_transparent cli_output_readable cli_verbosity log_macro_text log_configured", "Messages are given by their formatted pieces; assumed free of line ends.")
c("C64", "partial", "report_exact_partial report_release report_filter report_exact_refuted", "Holds in debug builds and, in release builds, if no unit clause is added twice. Refuted otherwise: the subtraction wraps around and the report shows 2^64 - 1 variables left. report_release says what release builds print for any statistics.")
c("C65", "proved", "minimize_complete", "")
c("C66", "proved", "step_reclaims memory_bounded", "")
c("C67", "proved", "bitfield_accepts bitfield_set bitfield_order score_is_bitfield header_word_field header_word_bit", "For unsigned field and accessor types and one attribute per word; the attribute parser is not modelled.")
c("C68", "proved", "vecmap_key_index vecmap_get_set vecmap_keys vecmap_keys_panic", "")
c("C69", "proved", "display_lit display_var", "Without formatting options.")
c("C70", "proved", "answer_implies_proof failed_run_detected proof_not_overwritten input_error_writes_nothing no_failure_no_difference", "flussab::DeferredWriter is modelled after its documentation. Errors on standard output are not modelled.")
c("C71", "proved", "interrupted_proof buffered_loss", "Interruptions during the search; an interruption inside a write request is a failing request.")
c("C72", "proved", "builds_agree", "For the debug assertions and overflow checks that are modelled (see DESIGN.md).")
c("C73", "proved", "proof_writer_passive proof_writer_same_run", "")
c("C74", "proved", "answer_semantic answer_order answer_renaming", "")
c("C75", "proved", "learned_new proof_additions_new", "")
c("C76", "proved", "arena_memory_safe", "Calls that panic are taken to change nothing; a panic inside a header's own shrink_clause is not modelled.")
c("C77", "partial", "gc_map_total_partial gc_map_search_partial arena_collect_preserves gc_map_overflow_refuted", "Proved for buffers below 2^32 words. Refuted beyond: add_clause only checks where a clause starts, so the buffer can end past 2^32 words, the offset of the end of the last gap is truncated and a deleted last clause is mapped to a live-looking reference.")
c("C78", "proved", "indices_fit arena_refs_fit arena_iterate_fits repeated_units_overflow", "repeated_units_overflow shows that the bound on repeated unit clauses is needed: without it the cast does truncate.")
c("C79", "proved", "step_told solve_told cli_told", "The text of the progress reports is C64; durations and quotients are formatted by the standard library and are parameters.")
c("C80", "proved", "step_passive solve_passive cli_passive", "")
c("C81","proved","analyze_with_minimization prepare_reorders plain_learned_asserting plain_analyze_succeeds","The call is in a dead branch of analyze_conflict (if true); the model makes the constant a parameter.")
c("C82","proved","counted_minimize minimize_linear","Sorting and reversing the clause are not counted.")

c("C83","proved","counted_propagate branch_linear","Work = binary clauses visited + watches visited + literals inspected by the circular search. Building the watch lists after they were disabled and copying list entries are not counted.")
c("C84","proved","counted_heap heap_logarithmic","Work = comparisons of values + exchanges of entries; resizing is not counted.")
c("C85","proved","counted_frames frames_bounded frames_exact","That the check ends and gives the right answer is part of C21, C65 and C82.")
c("C86","proved","counted_derive derive_linear","What is derived is C65; the work of minimizing it is C82.")
c("C87","proved","tables_bounded","The clause arena itself is C66. Allocated capacity beyond the length of a vector and the scratch buffers of conflict analysis are not modelled.")
c("C88","partial","struct_layout_sound transparent_values transparent_arrays transparent_refs transparent_accepts transparent_used transparent_from_partial transparent_from_refuted","Proved except for the last sentence, which is false: a repr(C) struct with a second field of size 0 and a larger alignment compiles, and the clause arena then hands out misaligned references to headers of that type through its safe API. It holds when no field needs a larger alignment than the first, as for all types of this code base.")
c("C89","proved","counters_bounded counters_fit","Uses the standard library's axioms of the real numbers (through Flocq's theory of rounding).")
c("C90","partial","counted_collect counted_schedule collect_linear collect_amortized_partial memory_in_use collect_quadratic collect_amortized_refuted lookup_logarithmic","collect_amortized_partial has an extra term: the steps taken while no long clause is stored. It cannot be dropped (collect_amortized_refuted): should_collect_garbage holds for an empty clause memory (0 >= 0), so every such step visits the trail and all watch lists, and solving a single unit clause for variable i takes quadratic work (collect_quadratic). memory_in_use: the term does not grow once a clause of three literals has been added.")

c("C91","partial","bitfield_accepted bitfield_any_type_partial bitfield_reads_back_partial bitfield_clamp_panics bitfield_full_signed_refuted bitfield_negative_refuted bitfield_two_attributes_refuted",
  "Reading back is proved except for declarations covering all of a signed field, and independence for accessors of different fields and of the same attribute. The rest is refuted by concrete structs, and the setters that always panic are characterised.")
c("C92","proved","steps_between_restarts last_restart solve_step_bound","The bound is exponential, as it must be for a bound that holds for every formula. It makes solve_terminates (C03) explicit: the levels along the trail, read as a number, grow with every step that does not restart.")
c("C93","proved","proof_matches_clauses proof_size","")
c("C94","proved","counted_run restarts_bounded propagation_work propagation_quadratic propagation_linear","The hypothesis on unit clauses excludes release builds that were given the same unit clause twice (see C08).")
c("C95","proved","selection_order_irrelevant selection_order_state reordered_prefix","The contract of select_nth_unstable is select_ok for the derived order of (score, reference) pairs. The kind of a panic is not compared.")
c("C96","proved","counted_analysis analysis_work run_quadratic counted_both","The hypothesis on unit clauses is that of C94. The counters leave out the priority queue (C84), garbage collection (C90) and reductions.")
c("C97","proved","counted_queue queue_work queue_conflicts","The hypothesis on unit clauses is that of C94. Rescaling the activities makes no comparisons and is not counted, nor is inserting new variables when a clause is added.")
c("C98","proved","counted_reductions reduction_once reduction_linear reduction_work reductions_bounded reduction_quadratic","select_nth_unstable counts as one unit per candidate, as its documentation promises. The bounds on the number of reductions use the exactness of the schedule up to 2^28 reductions (C54) and so the axioms of the real numbers.")
c("C99","proved","proof_bounded proof_file_size proof_file_any","In every state between the elementary operations of a run.")
c("C100","proved","queue_fair propagation_fair collect_fair reduce_fair analysis_fair minimize_fair","For single loops and operations; the counters of whole runs are their sums.")
c("C101","proved","any_heap_exact any_heap_total heap_instance","Comparisons are pure functions that do not panic. heap_instance: for natural numbers the model is that of C33, C34 and C84. What pop_max returns for an order that keeps its contract is part of C33 (any_heap_max_partial).")
c("C102","proved","counted_total steps_bounded total_work total_cubic worst_case","Work is counted by the counters of C90, C94, C96, C97 and C98, which C100 compares with the loops of the program. total_cubic rests on Flocq for the schedule of reductions. Releases with a repeated unit clause are left out.")
c("C103","proved","panic_safe panic_resize apply_panic apply_pure pure_instance","Cloning and dropping values is assumed not to panic (see C104 and C105). pure_instance and apply_pure: with comparisons and functions that are pure functions of the values the calls are those of C101.")
c("C104","partial","clone_panic_refuted clone_panic_partial clone_panic_calls_partial","The code violates the claim: heap.rs 63 lengthens the values before line 64 lengthens the positions, so after a panic in between len() counts indices for which is_enqueued and enqueue panic, and making the heap smaller panics (clone_panic_refuted). The old indices still work, and making the heap at least as large as len() repairs it (clone_panic_partial). clone_panic_calls_partial: every call for an old index and pop_max do the same as without the panic, and making the heap smaller never succeeds.")
c("C105","partial","drop_panic_refuted drop_panic_partial drop_panic_calls_partial pushed_is_enqueue","The code violates the claim for indices that no longer exist: heap.rs 63 shortens the values before line 64 shortens the positions, so after a panic in between is_enqueued answers for such an index, and enqueue panics only after it has enqueued it, so that later calls for indices that exist panic (drop_panic_refuted; pushed_is_enqueue justifies the heap it leaves behind). For existing indices, pop_max and changes of the size the claim holds (drop_panic_partial, drop_panic_calls_partial).")
names = set()
for f in glob.glob(here + "/rocq/theories/*.v"):
    names |= set(re.findall(r"^\s*Theorem\s+(\w+)", open(f).read(), re.M))
for cl in claims:
    for t in cl["theorems"]:
        assert t in names, t
claims.sort(key=lambda x: x["property"])
json.dump({"claims": claims}, open(here + "/MANIFEST.json", "w"), indent=1)
used = {t for cl in claims for t in cl["theorems"]}
print("theorems not in manifest:", sorted(names - used))
print("claims:", len(claims))
