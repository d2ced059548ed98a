(** A search step with a counter for the work of its conflict analysis.

    The functions below repeat those of [Model_Analysis] and [Model_Solver] for
    /repo/starlit/src/conflict_analysis.rs 82-104, /repo/starlit/src/search.rs 41-86 and
    /repo/starlit/src/state.rs 31-42 and count the units of [derive_1uip_clause_n] (see
    Model_DeriveCost.v) and of [minimize_derived_clause_n] (see Model_Cost.v), one unit
    for every assignment undone by the backtracking and four for every literal of the
    learned clause: two passes of compute_glue, glue.rs 14-26, the copy into the clause
    store and the line of the proof.  The cost of the priority queue of the decision
    heuristic is not counted (see Model_HeapCost.v).  That the results are those of the
    functions without a counter is [counted_analysis] in Prop_RunAnalysis.v. *)
From Coq Require Import NArith List Bool Arith.
From Verif Require Import Model_Base Model_Lit Model_PartialAssignment Model_Header
  Model_Arena Model_Prop Model_Heap Model_Vsids Model_Analysis Model_Solver Model_Cost Model_DeriveCost.
Import ListNotations.

(** analyze_conflict, conflict_analysis.rs 82-104 *)
Definition analyze_conflict_n (dbg : bool) (cx : ctx) (an : analysis) (p : prop)
    (c : conflict) (cb : callbacks) : res ((ctx * analysis * prop * callbacks) * nat) :=
  guard negb (Nat.eqb (decision_level (p_trail p)) 0) else PAssert in
  let+ (p1, an1, cb1) := derive_1uip_clause_n an p c cb in
  let cb2 := cb_analyzed_conflict cb1 in
  let+ (level, an2) := minimize_derived_clause_n an1 p1 in
  let+ (p2, cb3) := units 0 (backtrack_to_level dbg p1 level cb2) in
  let+ (cx', an3, p3) := units
    (length (t_steps (p_trail p1)) - length (t_steps (p_trail p2)) + 4 * length (an_derived an2))
    (learn_and_assign dbg cx an2 p2) in
  Ret ((cx', an3, p3, cb3), 0).

(** search_step, search.rs 41-86 *)
Definition search_step_a (dbg : bool) (cx : ctx) (se : search)
  : res ((option bool * ctx * search) * nat) :=
  if p_unsat (se_prop se) then Ret ((Some false, cx, se), 0)
  else
    let+ p0 := units 0 (prop_collect_garbage dbg (se_prop se)) in
    let+ (cx1, p1, r) := units 0 (propagate dbg cx p0) in
    match r with
    | Some c =>
        let cx2 := bump_conflicts cx1 in
        if Nat.eqb (decision_level (p_trail p1)) 0 then
          Ret ((Some false, cx2,
               mkSearch (p_set_unsat p1 true) (se_analysis se) (se_vsids se) (se_phases se)), 0)
        else
          let+ (cx3, an, p2, cb) :=
            analyze_conflict_n dbg cx2 (se_analysis se) p1 c
              (mkCb (se_vsids se) (se_phases se)) in
          Ret ((None, cx3, mkSearch p2 an (cb_vsids cb) (cb_phases cb)), 0)
    | None => units 0 (
        let* (ov, vs) := pop_decision_var (se_vsids se) (p_values p1) in
        match ov with
        | Some v =>
            let cx2 := bump_decisions cx1 in
            let* l := decide_phase (se_phases se) v in
            let* p2 := assign_decision dbg p1 l in
            Ret (None, cx2, mkSearch p2 (se_analysis se) vs (se_phases se))
        | None =>
            Ret (Some true, cx1, mkSearch p1 (se_analysis se) vs (se_phases se))
        end)
    end.

(** schedule_search_step, state.rs 31-42 *)
Definition schedule_search_step_a (select : list (N * cref) -> nat -> list (N * cref) * (N * cref) * list (N * cref))
    (dbg : bool) (cx : ctx) (st : state)
  : res ((option bool * ctx * state) * nat) :=
  let '(do_restart, sc1) := should_restart cx (sta_schedule st) in
  let+ (cx1, se1) := units 0
    (if do_restart then restart dbg cx (sta_search st) else Ret (cx, sta_search st)) in
  let '(do_reduce, sc2) := should_reduce cx1 sc1 in
  let+ (cx2, se2) := units 0
    (if do_reduce then
      let* (cx2, se2) := reduce select cx1 se1 in
      let* _ := report dbg cx2 in
      Ret (cx2, se2)
    else Ret (cx1, se1)) in
  let+ (r, cx3, se3) := search_step_a dbg cx2 se2 in
  Ret ((r, cx3, mkState se3 sc2), 0).
