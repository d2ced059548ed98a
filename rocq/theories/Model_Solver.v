(** Model of /repo/starlit/src/search.rs, search/reduce.rs, state.rs and
    solver.rs. *)
From Coq Require Import NArith ZArith List Bool Arith Floats.SpecFloat.
From Verif Require Import Model_Base Model_Lit Model_PartialAssignment Model_Header
  Model_Arena Model_Prop Model_Heap Model_Vsids Model_Analysis Model_Luby.
Import ListNotations.

(** ** Search (search.rs) *)

(** Search, search.rs 22-30 *)
Record search := mkSearch {
  se_prop : prop; se_analysis : analysis; se_vsids : vsids; se_phases : phases }.
(** Search::default, search.rs 23 (derived) *)
Definition search_empty := mkSearch prop_empty analysis_empty vsids_empty [].

(** Resize, search.rs 32-38 *)
Definition search_resize (s : search) (n : nat) : res search :=
  let* v := vsids_resize (se_vsids s) n in
  Ret (mkSearch (prop_resize (se_prop s) n) (se_analysis s) v (phases_resize (se_phases s) n)).

(** search.rs 74 *)
Definition bump_decisions (cx : ctx) : ctx :=
  let s := cx_stats cx in
  cx_with cx (mkStats (st_propagations s) (st_fixed_vars s)
    (st_binary s) (st_irredundant s) (st_redundant s) (st_vars s)
    (st_decisions s + 1) (st_conflicts s) (st_restarts s) (st_reductions s)).
(** search.rs 51 *)
Definition bump_conflicts (cx : ctx) : ctx :=
  let s := cx_stats cx in
  cx_with cx (mkStats (st_propagations s) (st_fixed_vars s)
    (st_binary s) (st_irredundant s) (st_redundant s) (st_vars s)
    (st_decisions s) (st_conflicts s + 1) (st_restarts s) (st_reductions s)).
(** search.rs 113 *)
Definition bump_restarts (cx : ctx) : ctx :=
  let s := cx_stats cx in
  cx_with cx (mkStats (st_propagations s) (st_fixed_vars s)
    (st_binary s) (st_irredundant s) (st_redundant s) (st_vars s)
    (st_decisions s) (st_conflicts s) (st_restarts s + 1) (st_reductions s)).
(** search/reduce.rs 22 *)
Definition bump_reductions (cx : ctx) : ctx :=
  let s := cx_stats cx in
  cx_with cx (mkStats (st_propagations s) (st_fixed_vars s)
    (st_binary s) (st_irredundant s) (st_redundant s) (st_vars s)
    (st_decisions s) (st_conflicts s) (st_restarts s) (st_reductions s + 1)).

(** search_step, search.rs 41-86 *)
Definition search_step (dbg : bool) (cx : ctx) (se : search)
  : res (option bool * ctx * search) :=
  if p_unsat (se_prop se) then Ret (Some false, cx, se)
  else
    let* p0 := prop_collect_garbage dbg (se_prop se) in
    let* (cx1, p1, r) := propagate dbg cx p0 in
    match r with
    | Some c =>
        let cx2 := bump_conflicts cx1 in
        if Nat.eqb (decision_level (p_trail p1)) 0 then
          Ret (Some false, cx2,
               mkSearch (p_set_unsat p1 true) (se_analysis se) (se_vsids se) (se_phases se))
        else
          let* (cx3, an, p2, cb) :=
            analyze_conflict dbg cx2 (se_analysis se) p1 c
              (mkCb (se_vsids se) (se_phases se)) in
          Ret (None, cx3, mkSearch p2 an (cb_vsids cb) (cb_phases cb))
    | None =>
        let* (ov, vs) := pop_decision_var (se_vsids se) (p_values p1) in
        match ov with
        | Some v =>
            let cx2 := bump_decisions cx1 in
            let* l := decide_phase (se_phases se) v in
            let* p2 := assign_decision dbg p1 l in
            Ret (None, cx2, mkSearch p2 (se_analysis se) vs (se_phases se))
        | None =>
            Ret (Some true, cx1, mkSearch p1 (se_analysis se) vs (se_phases se))
        end
    end.

(** restart, search.rs 111-126 *)
Definition restart (dbg : bool) (cx : ctx) (se : search) : res (ctx * search) :=
  let cx1 := bump_restarts cx in
  if Nat.ltb 0 (decision_level (p_trail (se_prop se))) then
    let* (p, cb) := backtrack_to_level dbg (se_prop se) 0 (mkCb (se_vsids se) (se_phases se)) in
    Ret (cx1, mkSearch p (se_analysis se) (cb_vsids cb) (cb_phases cb))
  else Ret (cx1, se).

(** ** Reduction (search/reduce.rs) *)

(** protect_clauses, search/reduce.rs 85-91 *)
Definition protect_step (prot : bool) (a : arena) (s : step) : res arena :=
  match s_reason s with
  | RLong c =>
      let* h := long_header_of a c in
      long_set_header a c (lh_set_protected h prot)
  | _ => Ret a
  end.
(** protect_clauses, search/reduce.rs 85-91 *)
Definition protect_clauses (prot : bool) (t : trail) (a : arena) : res arena :=
  foldM (protect_step prot) (t_steps t) a.

(** The candidate scan, search/reduce.rs 29-63 *)
Definition candidate (a : arena) (c : cref) : res (arena * option N) :=
  let* len := long_len a c in
  let* h := long_header_of a c in
  if lh_protected h then Ret (a, None)
  else if negb (lh_redundant h) then Ret (a, None)
  else if (lh_glue h <=? 2)%N then Ret (a, None)
  else
    let '(h', skip) :=
      if (0 <? lh_used h)%N then
        let h' := lh_set_used h (lh_used h - 1) in (h', (lh_glue h' <=? 5)%N)
      else (h, false) in
    let* a' := long_set_header a c h' in
    if skip then Ret (a', None)
    else Ret (a', Some (clause_score (lh_used h') (lh_glue h') (N.of_nat len))).

(** The candidate scan, search/reduce.rs 29-63 *)
Fixpoint candidates_loop (fuel : nat) (a : arena) (iter : option cref) (cs : list (N * cref))
  : res (arena * list (N * cref)) :=
  match fuel with
  | O => OutOfFuel
  | S f =>
      let* n := long_next a iter in
      match n with
      | None => Ret (a, cs)
      | Some c =>
          let* (a', o) := candidate a c in
          let cs' := match o with Some s => cs ++ [(s, c)] | None => cs end in
          candidates_loop f a' (Some c) cs'
      end
  end.

(** The deletion loop, search/reduce.rs 70-78; line 71's decrement must not
    underflow. *)
Definition delete_candidate (st : ctx * arena) (x : N * cref) : res (ctx * arena) :=
  let '(cx, a) := st in
  let s := cx_stats cx in
  guard Nat.ltb 0 (st_redundant s) else PArith in
  let cx1 := cx_with cx (mkStats (st_propagations s) (st_fixed_vars s)
    (st_binary s) (st_irredundant s) (st_redundant s - 1) (st_vars s)
    (st_decisions s) (st_conflicts s) (st_restarts s) (st_reductions s)) in
  let* cx2 :=
    match cx_proof cx1 with
    | Some _ => let* ls := long_lits a (snd x) in Ret (cx_log cx1 (PDelete ls))
    | None => Ret cx1
    end in
  let* a' := long_delete a (snd x) in
  Ret (cx2, a').

(** reduce, search/reduce.rs 20-82. [select xs k] stands for
    [select_nth_unstable(k)] (line 68) and returns the three parts (lower, nth,
    higher); line 68 panics if [k] is out of range, which the non-emptiness test of
    67 excludes. Its contract is [select_ok] (Spec.v). *)
Definition reduce (select : list (N * cref) -> nat ->
                            list (N * cref) * (N * cref) * list (N * cref))
    (cx : ctx) (se : search) : res (ctx * search) :=
  let cx1 := bump_reductions cx in
  let t := p_trail (se_prop se) in
  let* a1 := protect_clauses true t (p_long (se_prop se)) in
  let* (a2, cands) := candidates_loop (S (length (a_buffer a1))) a1 None [] in
  let* (cx2, a3) :=
    match cands with
    | [] => Ret (cx1, a2)
    | _ =>
        let '(_, higher) := select cands (Nat.div (length cands) 2) in
        foldM delete_candidate higher (cx1, a2)
    end in
  let* a4 := protect_clauses false t a3 in
  Ret (cx2, mkSearch (p_set_long (se_prop se) a4) (se_analysis se) (se_vsids se) (se_phases se)).

(** ** Schedule (state.rs) *)

(** Schedule, state.rs 44-52 *)
Record schedule := mkSched {
  sc_next_restart : N; sc_luby : luby; sc_next_reduce : N; sc_reductions : N }.
(** Schedule::default, state.rs 45 (derived) *)
Definition schedule_empty := mkSched 0 luby_init 0 0.

(** State, state.rs 16-21 *)
Record state := mkState { sta_search : search; sta_schedule : schedule }.
(** State::default, state.rs 16 (derived) *)
Definition state_empty := mkState search_empty schedule_empty.

(** should_restart, state.rs 55-63. 64-bit counters are unbounded here, including
    those of the Luby sequence. *)
Definition should_restart (cx : ctx) (sc : schedule) : bool * schedule :=
  let conflicts := N.of_nat (st_conflicts (cx_stats cx)) in
  if (sc_next_restart sc <=? conflicts)%N then
    let '(t, l) := luby_wide_advance (sc_luby sc) in
    (true, mkSched (conflicts + t * 512) l (sc_next_reduce sc) (sc_reductions sc))
  else (false, sc).

(** [(2000.0 * (n as f64).sqrt()) as u64], state.rs 70, in IEEE binary64 *)
Definition f64_of_N (n : N) : spec_float := binary_normalize 53 1024 (Z.of_N n) 0 false.
(** [as u64] of an IEEE binary64 number, state.rs 70 *)
Definition f64_to_u64 (f : spec_float) : N :=
  match f with
  | S754_finite false m e =>
      let v := match e with
               | Z0 => Npos m
               | Zpos p => N.shiftl (Npos m) (Npos p)
               | Zneg p => N.shiftr (Npos m) (Npos p)
               end in
      N.min v 18446744073709551615
  | S754_infinity false => 18446744073709551615
  | _ => 0
  end%N.
(** The whole expression, state.rs 70 *)
Definition reduce_interval (n : N) : N :=
  f64_to_u64 (SFmul 53 1024 (f64_of_N 2000) (SFsqrt 53 1024 (f64_of_N n))).

(** should_reduce, state.rs 66-73 *)
Definition should_reduce (cx : ctx) (sc : schedule) : bool * schedule :=
  let conflicts := N.of_nat (st_conflicts (cx_stats cx)) in
  if (sc_next_reduce sc <=? conflicts)%N then
    let n := (sc_reductions sc + 1)%N in
    (true, mkSched (sc_next_restart sc) (sc_luby sc) (sc_next_reduce sc + reduce_interval n) n)
  else (false, sc).

(** report, report.rs 7-37, as far as it can panic: the subtraction of line 27,
    checked in debug builds (it wraps in release builds).  The message is only
    computed when logging is enabled; the model assumes it always is. *)
Definition report (dbg : bool) (cx : ctx) : res unit :=
  if dbg then
    guard Nat.leb (st_fixed_vars (cx_stats cx)) (st_vars (cx_stats cx)) else PArith in Ret tt
  else Ret tt.

Section Solver.
Variable select : list (N * cref) -> nat -> list (N * cref) * (N * cref) * list (N * cref).
Variable dbg : bool.

(** schedule_search_step, state.rs 31-42 *)
Definition schedule_search_step (cx : ctx) (st : state) : res (option bool * ctx * state) :=
  let '(do_restart, sc1) := should_restart cx (sta_schedule st) in
  let* (cx1, se1) :=
    if do_restart then restart dbg cx (sta_search st) else Ret (cx, sta_search st) in
  let '(do_reduce, sc2) := should_reduce cx1 sc1 in
  let* (cx2, se2) :=
    if do_reduce then
      let* (cx2, se2) := reduce select cx1 se1 in
      let* _ := report dbg cx2 in
      Ret (cx2, se2)
    else Ret (cx1, se1) in
  let* (r, cx3, se3) := search_step dbg cx2 se2 in
  Ret (r, cx3, mkState se3 sc2).

(** ** Solver (solver.rs) *)

(** Solver, solver.rs 13-19 *)
Record solver := mkSolver { so_ctx : ctx; so_state : state }.
(** Solver::default, solver.rs 14 (derived) *)
Definition solver_new : solver := mkSolver ctx_empty state_empty.

(** add_clause, solver.rs 23-43 *)
Definition clause_var_count (clause : list lit) : nat :=
  fold_right (fun l n => Nat.max (vidx l + 1) n) 0 clause.

(** solver.rs 33 *)
Definition cx_set_vars (cx : ctx) (n : nat) : ctx :=
  let s := cx_stats cx in
  cx_with cx (mkStats (st_propagations s) (st_fixed_vars s)
    (st_binary s) (st_irredundant s) (st_redundant s) n
    (st_decisions s) (st_conflicts s) (st_restarts s) (st_reductions s)).

(** add_clause, solver.rs 23-43 *)
Definition solver_add_clause (s : solver) (clause : list lit) : res solver :=
  let var_count := clause_var_count clause in
  let* (cx1, se1) :=
    if Nat.ltb (st_vars (cx_stats (so_ctx s))) var_count then
      let* se := search_resize (sta_search (so_state s)) var_count in
      Ret (cx_set_vars (so_ctx s) var_count, se)
    else Ret (so_ctx s, sta_search (so_state s)) in
  let* (_, cx2, p2) := add_clause_verbatim dbg cx1 (se_prop se1) lh_new_input clause in
  Ret (mkSolver cx2
         (mkState (mkSearch p2 (se_analysis se1) (se_vsids se1) (se_phases se1))
                  (sta_schedule (so_state s)))).

(** write_proof, solver.rs 46-48 *)
Definition solver_write_proof (s : solver) : solver :=
  mkSolver (mkCtx (cx_stats (so_ctx s)) (Some [])) (so_state s).

(** close_proof, solver.rs 53-58 (flushing and IO errors are not modelled): returns
    the calls made on the writer *)
Definition solver_close_proof (s : solver) : solver :=
  mkSolver (mkCtx (cx_stats (so_ctx s)) None) (so_state s).

(** solve, solver.rs 61-68; one unit of fuel per search step *)
Fixpoint solve (fuel : nat) (s : solver) : res (bool * solver) :=
  match fuel with
  | O => OutOfFuel
  | S f =>
      let* (r, cx, st) := schedule_search_step (so_ctx s) (so_state s) in
      match r with
      | Some b => let* _ := report dbg cx in Ret (b, mkSolver cx st)
      | None => solve f (mkSolver cx st)
      end
  end.

(** value, solver.rs 71-77 *)
Definition solver_value (s : solver) (l : lit) : res (option bool) :=
  if Nat.ltb (vidx l) (st_vars (cx_stats (so_ctx s)))
  then pa_value (p_values (se_prop (sta_search (so_state s)))) l
  else Ret None.

(** A sequence of [add_clause] calls. The loop of starlit-cli/src/main.rs 86-88. *)
Definition add_clauses (s : solver) (cs : list (list lit)) : res solver :=
  foldM solver_add_clause cs s.

End Solver.

(** An implementation of [select_nth_unstable] by sorting, used to run the model on
    examples. Stands for search/reduce.rs 68. *)
Definition pair_leb (x y : N * cref) : bool :=
  (fst x <? fst y)%N || ((fst x =? fst y)%N && Nat.leb (snd x) (snd y)).
(** Insertion for [sort_pairs]; stands for search/reduce.rs 68. *)
Fixpoint insert_pair (x : N * cref) (l : list (N * cref)) : list (N * cref) :=
  match l with
  | [] => [x]
  | y :: r => if pair_leb x y then x :: y :: r else y :: insert_pair x r
  end.
(** Insertion sort; stands for search/reduce.rs 68. *)
Definition sort_pairs (l : list (N * cref)) : list (N * cref) := fold_right insert_pair [] l.
(** Selection by sorting; stands for search/reduce.rs 68. *)
Definition select_sort (l : list (N * cref)) (k : nat)
  : list (N * cref) * (N * cref) * list (N * cref) :=
  let s := sort_pairs l in
  (firstn k s, nth k s (0%N, 0), skipn (S k) s).
