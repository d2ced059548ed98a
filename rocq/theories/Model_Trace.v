(** The search with its logging calls: the functions of Model_Prop.v,
    Model_Analysis.v, Model_Solver.v and Model_Cli.v that contain calls of the
    logging macros, with these calls.  [out] is the text printed to standard
    output so far.  The arguments of a call are evaluated only if its level is
    active (log.rs 65); one of them can panic (prop.rs 158).

    [path] is how the compiler writes the path of a source file.  [clock] gives
    the running time in units of 10 ms: as a function of the number of bytes
    printed, which differs between any two readings that are printed, it stands
    for any clock.  Formatted floating point numbers and durations are external:
    arguments of [cli_logged]. *)
From Coq Require Import Ascii String.
From Coq Require Import NArith List Bool Arith.
From Verif Require Import Model_Base Model_Lit Model_PartialAssignment Model_Header Model_Arena Model_Prop Model_Heap
  Model_Vsids Model_Analysis Model_Luby Model_Solver Model_Drat Model_VecMap Model_Cli Model_Log Model_Report.
Import ListNotations.
Local Open Scope string_scope.
Local Open Scope list_scope.

(** The bytes of a string literal, for example search.rs 55 *)
Definition literal (s : string) : list N := map N_of_ascii (list_ascii_of_string s).

(** [Debug] of a [usize] or a DecisionLevel, prop/trail.rs 25-29 *)
Definition debug_nat (n : nat) : list N := uint_bytes (N.to_uint (N.of_nat n)).
(** [Debug] of a [bool], starlit-cli/src/main.rs 96 *)
Definition debug_bool (b : bool) : list N := literal (if b then "true" else "false").
(** The elements of a list after the first one, each after a comma and a blank:
    [Debug] of a [Vec], conflict_analysis.rs 190 *)
Definition debug_tail (ls : list lit) : list N := flat_map (fun l => literal ", " ++ lit_display l) ls.
(** [Debug] of a [Vec<Lit>], conflict_analysis.rs 190 *)
Definition debug_lits (ls : list lit) : list N :=
  literal "[" ++ match ls with [] => [] | l :: r => lit_display l ++ debug_tail r end ++ literal "]".
(** [Debug] of Utilization, clause_arena.rs 540-546 (derived) *)
Definition debug_utilization (u : nat * nat) : list N :=
  literal "Utilization { allocated: " ++ debug_nat (fst u) ++ literal ", used: " ++ debug_nat (snd u) ++ literal " }".

(** Macro arguments: a string literal, for example search.rs 112 *)
Definition a_msg (s : string) : log_arg := mkArg None (EStr (literal s)).
(** An unnamed value, for example prop.rs 158 *)
Definition a_val (v : list N) : log_arg := mkArg None (EValue v).
(** A named value, for example search.rs 76 *)
Definition a_named (name : string) (v : list N) : log_arg := mkArg (Some (literal name)) (EValue v).

Section Trace.
Variable lg : logger.
Variable path : list N -> list N.
Variable clock : nat -> N.

(** A macro call in the given source line, starlit-macros/src/log.rs 113-125 *)
Definition emit (out : list N) (l : log_level) (file line : string) (args : list log_arg) : list N :=
  out ++ log_macro lg l (path (literal file)) (literal line) args.

(** collect_garbage, prop.rs 150-154, with the call in 158; the arguments are
    evaluated in the closure *)
Definition collect_garbage_logged (dbg : bool) (p : prop) (out : list N) : res (prop * list N) :=
  if should_collect_garbage (p_long p) then
    let* out' :=
      if (level_u8 LDebug <? lg_limit lg)%N then
        let* u := utilization (p_long p) in
        Ret (emit out LDebug "starlit/src/prop.rs" "158" [a_msg "garbage collection"; a_val (debug_utilization u)])
      else Ret out in
    let* p' := collect_garbage_now dbg p in
    Ret (p', out')
  else Ret (p, out).

(** backtrack_to_level, prop/trail.rs 270-303, with the call in 276-281 *)
Definition backtrack_logged (dbg : bool) (p : prop) (level : nat) (cb : callbacks) (out : list N)
  : res (prop * callbacks * list N) :=
  let out' := emit out LTrace "starlit/src/prop/trail.rs" "276"
    [a_msg "backtrack"; a_named "from" (debug_nat (decision_level (p_trail p))); a_named "to" (debug_nat level)] in
  let* (p', cb') := backtrack_to_level dbg p level cb in
  Ret (p', cb', out').

(** analyze_conflict, conflict_analysis.rs 82-104, with the call at the end of
    derive_1uip_clause, 190 *)
Definition analyze_conflict_logged (dbg : bool) (cx : ctx) (an : analysis) (p : prop)
    (c : conflict) (cb : callbacks) (out : list N) : res (ctx * analysis * prop * callbacks * list N) :=
  guard negb (Nat.eqb (decision_level (p_trail p)) 0) else PAssert in
  let* (p1, an1, cb1) := derive_1uip_clause an p c cb in
  let out1 := emit out LTrace "starlit/src/conflict_analysis.rs" "190"
    [a_msg "1-uip"; a_named "clause" (debug_lits (an_derived an1))] in
  let cb2 := cb_analyzed_conflict cb1 in
  let* (level, an2) := minimize_derived_clause an1 p1 in
  let* (p2, cb3, out2) := backtrack_logged dbg p1 level cb2 out1 in
  let* (cx', an3, p3) := learn_and_assign dbg cx an2 p2 in
  Ret (cx', an3, p3, cb3, out2).

(** search_step, search.rs 41-86, with the calls in 55, 76 and 81 *)
Definition search_step_logged (dbg : bool) (cx : ctx) (se : search) (out : list N)
  : res (option bool * ctx * search * list N) :=
  if p_unsat (se_prop se) then Ret (Some false, cx, se, out)
  else
    let* (p0, out0) := collect_garbage_logged dbg (se_prop se) out in
    let* (cx1, p1, r) := propagate dbg cx p0 in
    match r with
    | Some c =>
        let cx2 := bump_conflicts cx1 in
        if Nat.eqb (decision_level (p_trail p1)) 0 then
          Ret (Some false, cx2,
               mkSearch (p_set_unsat p1 true) (se_analysis se) (se_vsids se) (se_phases se),
               emit out0 LVerbose "starlit/src/search.rs" "55" [a_msg "unsatisfiable"])
        else
          let* (cx3, an, p2, cb, out1) :=
            analyze_conflict_logged dbg cx2 (se_analysis se) p1 c
              (mkCb (se_vsids se) (se_phases se)) out0 in
          Ret (None, cx3, mkSearch p2 an (cb_vsids cb) (cb_phases cb), out1)
    | None =>
        let* (ov, vs) := pop_decision_var (se_vsids se) (p_values p1) in
        match ov with
        | Some v =>
            let cx2 := bump_decisions cx1 in
            let* l := decide_phase (se_phases se) v in
            let out1 := emit out0 LTrace "starlit/src/search.rs" "76" [a_named "decision" (lit_display l)] in
            let* p2 := assign_decision dbg p1 l in
            Ret (None, cx2, mkSearch p2 (se_analysis se) vs (se_phases se), out1)
        | None =>
            Ret (Some true, cx1, mkSearch p1 (se_analysis se) vs (se_phases se),
                 emit out0 LVerbose "starlit/src/search.rs" "81" [a_msg "satisfiable"])
        end
    end.

(** restart, search.rs 111-126, with the call in 112 *)
Definition restart_logged (dbg : bool) (cx : ctx) (se : search) (out : list N) : res (ctx * search * list N) :=
  let out1 := emit out LDebug "starlit/src/search.rs" "112" [a_msg "restart"] in
  let cx1 := bump_restarts cx in
  if Nat.ltb 0 (decision_level (p_trail (se_prop se))) then
    let* (p, cb, out2) := backtrack_logged dbg (se_prop se) 0 (mkCb (se_vsids se) (se_phases se)) out1 in
    Ret (cx1, mkSearch p (se_analysis se) (cb_vsids cb) (cb_phases cb), out2)
  else Ret (cx1, se, out1).

(** reduce, search/reduce.rs 20-82, with the call in 21 *)
Definition reduce_logged (select : list (N * cref) -> nat -> list (N * cref) * (N * cref) * list (N * cref))
    (cx : ctx) (se : search) (out : list N) : res (ctx * search * list N) :=
  let out1 := emit out LDebug "starlit/src/search/reduce.rs" "21" [a_msg "reduce"] in
  let* (cx', se') := reduce select cx se in
  Ret (cx', se', out1).

(** report, report.rs 7-37; [file] and [line] are those of the caller
    ([track_caller]) *)
Definition report_logged (dbg : bool) (cx : ctx) (file line : string) (out : list N) : res (list N) :=
  let* bs := report_print dbg lg (cx_stats cx) (clock (length out)) (path (literal file)) (literal line) in
  Ret (out ++ bs).

Section Solver.
Variable select : list (N * cref) -> nat -> list (N * cref) * (N * cref) * list (N * cref).
Variable dbg : bool.

(** schedule_search_step, state.rs 31-42 *)
Definition schedule_search_step_logged (cx : ctx) (st : state) (out : list N)
  : res (option bool * ctx * state * list N) :=
  let '(do_restart, sc1) := should_restart cx (sta_schedule st) in
  let* (cx1, se1, out1) :=
    if do_restart then restart_logged dbg cx (sta_search st) out else Ret (cx, sta_search st, out) in
  let '(do_reduce, sc2) := should_reduce cx1 sc1 in
  let* (cx2, se2, out2) :=
    if do_reduce then
      let* (cx2, se2, out') := reduce_logged select cx1 se1 out1 in
      let* out'' := report_logged dbg cx2 "starlit/src/state.rs" "38" out' in
      Ret (cx2, se2, out'')
    else Ret (cx1, se1, out1) in
  let* (r, cx3, se3, out3) := search_step_logged dbg cx2 se2 out2 in
  Ret (r, cx3, mkState se3 sc2, out3).

(** solve, solver.rs 61-68 *)
Fixpoint solve_logged (fuel : nat) (s : solver) (out : list N) : res (bool * solver * list N) :=
  match fuel with
  | O => OutOfFuel
  | S f =>
      let* (r, cx, st, out1) := schedule_search_step_logged (so_ctx s) (so_state s) out in
      match r with
      | Some b =>
          let* out2 := report_logged dbg cx "starlit/src/solver.rs" "64" out1 in
          Ret (b, mkSolver cx st, out2)
      | None => solve_logged f (mkSolver cx st) out1
      end
  end.

(** main, starlit-cli/src/main.rs 61-145, with the calls in 61 and 96-112: the
    text printed to standard output and the exit code.  [duration] and the
    ratios are the formatted running time and the formatted quotients of 100,
    105 and 111. *)
Definition cli_logged (fuel : nat) (proof : bool) (var_count : nat) (clauses : list (list lit))
    (duration cps dpc pps : list N) : res (list N * nat) :=
  let main := "starlit-cli/src/main.rs" in
  let out0 := emit [] LInfo main "61" [a_msg "Starlit SAT Solver"] in
  let s0 := if proof then solver_write_proof solver_new else solver_new in
  let* s1 := add_clauses dbg s0 clauses in
  let* (sat, s2, out1) := solve_logged fuel s1 out0 in
  let stats := cx_stats (so_ctx s2) in
  let out2 := emit out1 LInfo main "96" [a_named "satisfiable" (debug_bool sat); a_named "duration" duration] in
  let out3 := emit out2 LInfo main "97" [a_named "conflicts" (debug_nat (st_conflicts stats)); a_named "per_sec" cps] in
  let out4 := emit out3 LInfo main "102" [a_named "decisions" (debug_nat (st_decisions stats)); a_named "per_conflict" dpc] in
  let out5 := emit out4 LInfo main "108" [a_named "propagations" (debug_nat (st_propagations stats)); a_named "per_sec" pps] in
  if sat then
    let* vs := v_lines (solver_value s2) var_count in
    Ret (out5 ++ print_lines (s_sat :: vs), 20)
  else Ret (out5 ++ print_lines [s_unsat], 20).

End Solver.
End Trace.
