(** The states a search passes through, and words to describe them.

    [visited select dbg F cx se]: context and search state between any two
    operations of a search on the clauses [F].  Restarts, reductions,
    backtracking (to any lower level), garbage collection, disabling and
    enabling the watch lists and adding a clause that is [watchable] may happen
    at any time, not only when the schedule of state.rs or a caller of the
    solver can ask for them. *)
From Coq Require Import NArith List Bool Arith.
From Verif Require Import Model_Base Model_Lit Model_PartialAssignment Model_Header Model_Arena Model_Prop Model_Heap Model_Vsids
  Model_Analysis Model_Solver Spec Drivers_Solver.
Import ListNotations.

Definition with_prop (se : search) (p : prop) : search := mkSearch p (se_analysis se) (se_vsids se) (se_phases se).
Definition search_cb (se : search) : callbacks := mkCb (se_vsids se) (se_phases se).

Inductive visited (select : selection) (dbg : bool) : list (list N) -> ctx -> search -> Prop :=
| vis_solver F s : reach select dbg F s -> visited select dbg F (so_ctx s) (sta_search (so_state s))
| vis_step F cx se r cx' se' : visited select dbg F cx se ->
    search_step dbg cx se = Ret (r, cx', se') -> visited select dbg F cx' se'
| vis_restart F cx se cx' se' : visited select dbg F cx se ->
    restart dbg cx se = Ret (cx', se') -> visited select dbg F cx' se'
| vis_reduce F cx se cx' se' : visited select dbg F cx se ->
    reduce select cx se = Ret (cx', se') -> visited select dbg F cx' se'
| vis_collect F cx se p : visited select dbg F cx se ->
    prop_collect_garbage dbg (se_prop se) = Ret p -> visited select dbg F cx (with_prop se p)
| vis_backtrack F cx se k p cb : visited select dbg F cx se ->
    backtrack_to_level dbg (se_prop se) k (search_cb se) = Ret (p, cb) ->
    visited select dbg F cx (mkSearch p (se_analysis se) (cb_vsids cb) (cb_phases cb))
| vis_propagate F cx se cx' p r : visited select dbg F cx se ->
    propagate dbg cx (se_prop se) = Ret (cx', p, r) -> visited select dbg F cx' (with_prop se p)
| vis_conflict F cx se cx1 p1 c cx2 an p2 cb : visited select dbg F cx se ->
    propagate dbg cx (se_prop se) = Ret (cx1, p1, Some c) -> decision_level (p_trail p1) <> 0 ->
    analyze_conflict dbg (bump_conflicts cx1) (se_analysis se) p1 c (search_cb se) = Ret (cx2, an, p2, cb) ->
    visited select dbg F cx2 (mkSearch p2 an (cb_vsids cb) (cb_phases cb))
| vis_decide F cx se cx1 p1 v vs l p2 : visited select dbg F cx se ->
    propagate dbg cx (se_prop se) = Ret (cx1, p1, None) ->
    pop_decision_var (se_vsids se) (p_values p1) = Ret (Some v, vs) ->
    decide_phase (se_phases se) v = Ret l -> assign_decision dbg p1 l = Ret p2 ->
    visited select dbg F (bump_decisions cx1) (mkSearch p2 (se_analysis se) vs (se_phases se))
| vis_top F cx se cx1 p1 c : visited select dbg F cx se -> p_unsat (se_prop se) = false ->
    propagate dbg cx (se_prop se) = Ret (cx1, p1, Some c) -> decision_level (p_trail p1) = 0 ->
    visited select dbg F (bump_conflicts cx1) (with_prop se (p_set_unsat p1 true))
| vis_model F cx se cx1 p1 vs : visited select dbg F cx se ->
    propagate dbg cx (se_prop se) = Ret (cx1, p1, None) -> pop_decision_var (se_vsids se) (p_values p1) = Ret (None, vs) ->
    visited select dbg F cx1 (mkSearch p1 (se_analysis se) vs (se_phases se))
| vis_cycle F cx se p1 p2 : visited select dbg F cx se ->
    enable_watch_lists dbg (se_prop se) false = Ret p1 -> enable_watch_lists dbg p1 true = Ret p2 ->
    visited select dbg F cx (with_prop se p2)
| vis_close F cx se : visited select dbg F cx se -> visited select dbg F (mkCtx (cx_stats cx) None) se
| vis_add F s c s' : visited select dbg F (so_ctx s) (sta_search (so_state s)) -> valid_clause c -> watchable s c ->
    solver_add_clause dbg s c = Ret s' -> visited select dbg (F ++ [c]) (so_ctx s') (sta_search (so_state s')).

(** ** Words for propagation states *)

(** The assigned literals, in the order of their assignment. *)
Definition trail_lits (p : prop) : list N := map s_lit (t_steps (p_trail p)).
Definition is_true (p : prop) (l : N) : Prop := In l (trail_lits p).
Definition is_false (p : prop) (l : N) : Prop := In (neg l) (trail_lits p).
Definition is_open (p : prop) (l : N) : Prop := ~ is_true p l /\ ~ is_false p l.
(** [l] is true since level [k]. *)
Definition true_at (p : prop) (l : N) (k : nat) : Prop :=
  exists s, In s (t_steps (p_trail p)) /\ s_lit s = l /\ s_level s = k.
Definition is_decision (s : step) : bool := match s_reason s with RDecision => true | _ => false end.
(** A clause of at least two literals that is currently stored, in the arena or
    in the binary clause lists. *)
Definition holds_clause (p : prop) (c : list N) : Prop :=
  (exists r, long_lits (p_long p) r = Ret c /\ c <> []) \/
  (exists a b, c = [a; b] /\ exists bs, bin_containing (p_binary p) a = Ret bs /\ In b bs).
(** The literals of an assigned step's recorded reason besides the propagated
    one.  A decision has none. *)
Definition reason_rest (p : prop) (s : step) (rest : list N) : Prop :=
  match s_reason s with
  | RDecision => False
  | RUnit => rest = []
  | RBinary b => rest = [b] /\ holds_clause p [s_lit s; b]
  | RLong r => long_lits (p_long p) r = Ret (s_lit s :: rest)
  end.

(** [l] follows over the recorded reasons from the literals [A]: unit propagation
    restricted to the reason of each assigned literal.  (Top-level assignments
    follow from nothing.) *)
Inductive follows (p : prop) (A : list N) : N -> Prop :=
| fo_assume l : In l A -> follows p A l
| fo_reason s rest : In s (t_steps (p_trail p)) -> reason_rest p s rest ->
    (forall x, In x rest -> follows p A (neg x)) -> follows p A (s_lit s).

(** ** Histories

    [searched select dbg F evs cx se]: like [visited], restricted to the
    elementary operations, with the list of what happened so far (oldest first):
    propagation calls (how many literals they completed and whether they ended
    in a conflict), decisions, assignments undone by backtracking (in the order
    of the trail), restarts and reductions.  Adding a clause leaves no event. *)
Inductive event :=
| EvPropagate (k : nat) (conflict : bool) | EvDecide (l : N) | EvUndo (ls : list N) | EvRestart | EvReduce.

Definition propagated (p p' : prop) : nat := t_propagated (p_trail p') - t_propagated (p_trail p).
(** The literals of [p]'s trail above the decision level of [p']. *)
Definition undone (p p' : prop) : list N :=
  map s_lit (filter (fun s => decision_level (p_trail p') <? s_level s) (t_steps (p_trail p))).

Inductive searched (select : selection) (dbg : bool) : list (list N) -> list event -> ctx -> search -> Prop :=
| sea_start F s : built dbg F s -> searched select dbg F [] (so_ctx s) (sta_search (so_state s))
| sea_close F evs cx se : searched select dbg F evs cx se -> searched select dbg F evs (mkCtx (cx_stats cx) None) se
| sea_collect F evs cx se p : searched select dbg F evs cx se ->
    prop_collect_garbage dbg (se_prop se) = Ret p -> searched select dbg F evs cx (with_prop se p)
| sea_reduce F evs cx se cx' se' : searched select dbg F evs cx se ->
    reduce select cx se = Ret (cx', se') -> searched select dbg F (evs ++ [EvReduce]) cx' se'
| sea_restart F evs cx se cx' se' : searched select dbg F evs cx se ->
    restart dbg cx se = Ret (cx', se') ->
    searched select dbg F (evs ++ [EvRestart; EvUndo (undone (se_prop se) (se_prop se'))]) cx' se'
| sea_conflict F evs cx se cx1 p1 c cx2 an p2 cb : searched select dbg F evs cx se -> p_unsat (se_prop se) = false ->
    propagate dbg cx (se_prop se) = Ret (cx1, p1, Some c) -> decision_level (p_trail p1) <> 0 ->
    analyze_conflict dbg (bump_conflicts cx1) (se_analysis se) p1 c (search_cb se) = Ret (cx2, an, p2, cb) ->
    searched select dbg F (evs ++ [EvPropagate (propagated (se_prop se) p1) true; EvUndo (undone p1 p2)])
      cx2 (mkSearch p2 an (cb_vsids cb) (cb_phases cb))
| sea_decide F evs cx se cx1 p1 v vs l p2 : searched select dbg F evs cx se ->
    propagate dbg cx (se_prop se) = Ret (cx1, p1, None) ->
    pop_decision_var (se_vsids se) (p_values p1) = Ret (Some v, vs) ->
    decide_phase (se_phases se) v = Ret l -> assign_decision dbg p1 l = Ret p2 ->
    searched select dbg F (evs ++ [EvPropagate (propagated (se_prop se) p1) false; EvDecide l])
      (bump_decisions cx1) (mkSearch p2 (se_analysis se) vs (se_phases se))
| sea_top F evs cx se cx1 p1 c : searched select dbg F evs cx se -> p_unsat (se_prop se) = false ->
    propagate dbg cx (se_prop se) = Ret (cx1, p1, Some c) -> decision_level (p_trail p1) = 0 ->
    searched select dbg F (evs ++ [EvPropagate (propagated (se_prop se) p1) true])
      (bump_conflicts cx1) (with_prop se (p_set_unsat p1 true))
| sea_model F evs cx se cx1 p1 vs : searched select dbg F evs cx se ->
    propagate dbg cx (se_prop se) = Ret (cx1, p1, None) -> pop_decision_var (se_vsids se) (p_values p1) = Ret (None, vs) ->
    searched select dbg F (evs ++ [EvPropagate (propagated (se_prop se) p1) false])
      cx1 (mkSearch p1 (se_analysis se) vs (se_phases se))
| sea_add F evs s c s' : searched select dbg F evs (so_ctx s) (sta_search (so_state s)) -> valid_clause c -> watchable s c ->
    solver_add_clause dbg s c = Ret s' -> searched select dbg (F ++ [c]) evs (so_ctx s') (sta_search (so_state s')).

(** The literals undone so far, oldest first. *)
Definition all_undone (evs : list event) : list N :=
  flat_map (fun e => match e with EvUndo ls => ls | _ => [] end) evs.
(** The literal of variable [v] undone last, and the negative literal of [v] if
    none was undone.  (Literals are numbered [2 v] and [2 v + 1], the odd one is
    positive.) *)
Definition last_phase (v : nat) (undone : list N) : N :=
  match find (fun l => N.to_nat (l / 2) =? v) (rev undone) with
  | Some l => l
  | None => (2 * N.of_nat v)%N
  end.
Definition count_events (f : event -> bool) (evs : list event) : nat := length (filter f evs).
Definition is_conflict (e : event) : bool := match e with EvPropagate _ true => true | _ => false end.
Definition is_decide (e : event) : bool := match e with EvDecide _ => true | _ => false end.
Definition is_restart (e : event) : bool := match e with EvRestart => true | _ => false end.
Definition is_reduce (e : event) : bool := match e with EvReduce => true | _ => false end.
Definition sum_propagated (with_conflicts : bool) (evs : list event) : nat :=
  list_sum (map (fun e => match e with EvPropagate k c => if c && negb with_conflicts then 0 else k | _ => 0 end) evs).

(** ** Words for the clause arena *)
(** The live long clause with reference [r] has header [h] and literals [c]. *)
Definition clause_at (p : prop) (r : cref) (h : long_header) (c : list N) : Prop :=
  long_lits (p_long p) r = Ret c /\ c <> [] /\ long_header_of (p_long p) r = Ret h.
Definition is_reason (p : prop) (r : cref) : Prop := exists s, In s (t_steps (p_trail p)) /\ s_reason s = RLong r.
(** A clause that may be deleted: learned, not a reason, glue above 2, and not
    used recently unless the glue is above 5. *)
Definition deletable (p : prop) (r : cref) (h : long_header) (c : list N) : Prop :=
  clause_at p r h c /\ lh_redundant h = true /\ ~ is_reason p r /\ (2 < lh_glue h)%N /\ (lh_used h = 0 \/ 5 < lh_glue h)%N.
(** Variable [v] is one of the solver's variables: some literal of the formula
    has a variable at least as large. *)
Definition has_var (F : list (list N)) (v : nat) : Prop :=
  exists c x, In c F /\ In x c /\ v <= N.to_nat (x / 2).
Definition lists (A : Type) (l : list A) (P : A -> Prop) : Prop := NoDup l /\ forall x, In x l <-> P x.

(** ** Runs: states at the boundaries of search steps *)
Definition run (select : selection) (dbg : bool) (s : nat -> solver) (n : nat) : Prop :=
  forall i, i < n -> exists r cx st, schedule_search_step select dbg (so_ctx (s i)) (so_state (s i)) = Ret (r, cx, st) /\
    s (S i) = mkSolver cx st.
Definition conflicts (s : solver) : nat := st_conflicts (cx_stats (so_ctx s)).
Definition restarts (s : solver) : nat := st_restarts (cx_stats (so_ctx s)).
