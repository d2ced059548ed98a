(** A search step with a counter for the work of clause database reductions.

    The functions below repeat those of [Model_Solver] for
    /repo/starlit/src/search/reduce.rs and /repo/starlit/src/state.rs 31-42 and count one
    unit
    - for every step of the trail visited by protect_clauses (86),
    - for every word of the clause memory at which the search for the next clause stops
      and for every clause found (31-63),
    - for every candidate given to select_nth_unstable (68), which the documentation of
      the standard library promises to take linear time,
    - for every clause deleted, and for every literal of its line in the proof (70-78).
    That the results are those of the functions without a counter is [counted_reductions]
    in Prop_ReduceCost.v. *)
From Coq Require Import NArith List Bool Arith.
From Verif Require Import Model_Base Model_Lit Model_PartialAssignment Model_Header
  Model_Arena Model_Prop Model_Heap Model_Vsids Model_Analysis Model_Luby Model_Solver Model_Cost Model_GcCost.
Import ListNotations.

(** protect_clauses, search/reduce.rs 85-91 *)
Definition protect_clauses_n (prot : bool) (t : trail) (a : arena) : res (arena * nat) :=
  foldC (fun a s => units 1 (protect_step prot a s)) (t_steps t) a.

(** The candidate scan, search/reduce.rs 29-63 *)
Fixpoint candidates_loop_n (fuel : nat) (a : arena) (iter : option cref) (cs : list (N * cref))
  : res ((arena * list (N * cref)) * nat) :=
  match fuel with
  | O => OutOfFuel
  | S f =>
      let+ n := next_clause_n LONG_HEADER_LEN a iter in
      match n with
      | None => Ret ((a, cs), 0)
      | Some c =>
          let+ (a', o) := units 1 (candidate a c) in
          let cs' := match o with Some s => cs ++ [(s, c)] | None => cs end in
          candidates_loop_n f a' (Some c) cs'
      end
  end.

(** The deletion loop, search/reduce.rs 70-78 *)
Definition delete_candidate_n (st : ctx * arena) (x : N * cref) : res ((ctx * arena) * nat) :=
  let '(cx, a) := st in
  let s := cx_stats cx in
  guard Nat.ltb 0 (st_redundant s) else PArith in
  let cx1 := cx_with cx (mkStats (st_propagations s) (st_fixed_vars s)
    (st_binary s) (st_irredundant s) (st_redundant s - 1) (st_vars s)
    (st_decisions s) (st_conflicts s) (st_restarts s) (st_reductions s)) in
  let+ cx2 :=
    match cx_proof cx1 with
    | Some _ => let+ ls := units 0 (long_lits a (snd x)) in units (length ls) (Ret (cx_log cx1 (PDelete ls)))
    | None => Ret (cx1, 0)
    end in
  let+ a' := units 1 (long_delete a (snd x)) in
  Ret ((cx2, a'), 0).

(** reduce, search/reduce.rs 20-82 *)
Definition reduce_n (select : list (N * cref) -> nat ->
                            list (N * cref) * (N * cref) * list (N * cref))
    (cx : ctx) (se : search) : res ((ctx * search) * nat) :=
  let cx1 := bump_reductions cx in
  let t := p_trail (se_prop se) in
  let+ a1 := protect_clauses_n true t (p_long (se_prop se)) in
  let+ (a2, cands) := candidates_loop_n (S (length (a_buffer a1))) a1 None [] in
  let+ (cx2, a3) :=
    match cands with
    | [] => Ret ((cx1, a2), 0)
    | _ =>
        let+ parts := units (length cands) (Ret (select cands (Nat.div (length cands) 2))) in
        foldC delete_candidate_n (snd parts) (cx1, a2)
    end in
  let+ a4 := protect_clauses_n false t a3 in
  Ret ((cx2, mkSearch (p_set_long (se_prop se) a4) (se_analysis se) (se_vsids se) (se_phases se)), 0).

(** schedule_search_step, state.rs 31-42 *)
Definition schedule_search_step_r (select : list (N * cref) -> nat -> list (N * cref) * (N * cref) * list (N * cref))
    (dbg : bool) (cx : ctx) (st : state)
  : res ((option bool * ctx * state) * nat) :=
  let '(do_restart, sc1) := should_restart cx (sta_schedule st) in
  let+ (cx1, se1) := units 0
    (if do_restart then restart dbg cx (sta_search st) else Ret (cx, sta_search st)) in
  let '(do_reduce, sc2) := should_reduce cx1 sc1 in
  let+ (cx2, se2) :=
    (if do_reduce then
      let+ (cx2, se2) := reduce_n select cx1 se1 in
      let+ _ := units 0 (report dbg cx2) in
      Ret ((cx2, se2), 0)
    else Ret ((cx1, se1), 0)) in
  let+ (r, cx3, se3) := units 0 (search_step dbg cx2 se2) in
  Ret ((r, cx3, mkState se3 sc2), 0).
