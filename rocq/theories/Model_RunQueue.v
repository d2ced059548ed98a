(** A search step with a counter for the work of the priority queue of the decision
    heuristic.

    The functions below repeat those of [Model_Vsids], [Model_Analysis] and
    [Model_Solver] for /repo/starlit/src/search/vsids.rs, /repo/starlit/src/search.rs,
    /repo/starlit/src/conflict_analysis.rs, /repo/starlit/src/prop/trail.rs and
    /repo/starlit/src/state.rs and count the comparisons and exchanges of
    Model_HeapCost.v.  Rescaling all activities (vsids.rs 126-136) makes neither and is
    not counted.  That the results are those of the functions without a counter is
    [counted_queue] in Prop_RunQueue.v. *)
From Coq Require Import NArith List Bool Arith SpecFloat.
From Verif Require Import Model_Base Model_Lit Model_PartialAssignment Model_Header
  Model_Arena Model_Prop Model_Heap Model_Vsids Model_Analysis Model_Solver Model_Cost Model_HeapCost.
Import ListNotations.

(** unassign, search/vsids.rs 69-73 *)
Definition vsids_unassign_q (v : vsids) (l : lit) : res (vsids * nat) :=
  let+ h := enqueue_n (vs_activity v) (vidx l) in
  Ret (mkVsids h (vs_increment v), 0).
(** bump_var, search/vsids.rs 83-101 *)
Definition bump_var_q (v : vsids) (l : lit) : res (vsids * nat) :=
  let+ old := units 0 (vget (h_values (vs_activity v)) (vidx l)) in
  let+ h := increase_n (vs_activity v) (vidx l) (bump_bits (vs_increment v)) in
  let v1 := mkVsids h (vs_increment v) in
  let activity := f32_add (f32_from_bits old) (vs_increment v) in
  Ret (if SFltb RESCALE_LIMIT activity then vsids_rescale v1 else v1, 0).
(** pop_decision_var, search/vsids.rs 112-121 *)
Fixpoint pop_loop_q (fuel : nat) (h : heap) (vals : passign) : res ((option nat * heap) * nat) :=
  match fuel with
  | O => OutOfFuel
  | S f =>
      let+ (o, h1) := pop_max_n h in
      match o with
      | None => Ret ((None, h1), 0)
      | Some v =>
          let+ a := units 0 (pa_is_assigned vals (N.of_nat v)) in
          if negb a then Ret ((Some v, h1), 0) else pop_loop_q f h1 vals
      end
  end.
(** pop_decision_var, search/vsids.rs 112-121 *)
Definition pop_decision_var_q (v : vsids) (vals : passign) : res ((option nat * vsids) * nat) :=
  let+ (o, h) := pop_loop_q (S (length (h_heap (vs_activity v)))) (vs_activity v) vals in
  Ret ((o, mkVsids h (vs_increment v)), 0).

(** unassign, search.rs 93-98 *)
Definition cb_unassign_q (cb : callbacks) (l : lit) : res (callbacks * nat) :=
  let+ v := vsids_unassign_q (cb_vsids cb) l in
  let+ ph := units 0 (phases_unassign (cb_phases cb) l) in
  Ret (mkCb v ph, 0).
(** var_in_conflict, search.rs 101-103 *)
Definition cb_var_in_conflict_q (cb : callbacks) (l : lit) : res (callbacks * nat) :=
  let+ v := bump_var_q (cb_vsids cb) l in Ret (mkCb v (cb_phases cb), 0).

(** Body of the [drain] loop, prop/trail.rs 287-298 *)
Definition unassign_step_q (dbg : bool) (st : callbacks * passign * list (option nat)) (s : step)
  : res ((callbacks * passign * list (option nat)) * nat) :=
  let '(cb, vals, ti) := st in
  let+ cb' := cb_unassign_q cb (s_lit s) in
  let+ vals' := units 0 (pa_unassign vals (lit_var (s_lit s))) in
  let+ ti' := units 0 (if dbg then vset ti (vidx (s_lit s)) None else Ret ti) in
  Ret ((cb', vals', ti'), 0).
(** backtrack_to_level, prop/trail.rs 270-303 *)
Definition backtrack_to_level_q (dbg : bool) (p : prop) (level : nat) (cb : callbacks)
  : res ((prop * callbacks) * nat) :=
  let t := p_trail p in
  guard Nat.ltb level (decision_level t) else PAssert in
  let+ target := units 0 (vget (t_decisions t) (level + 1)) in
  guard Nat.leb target (length (t_steps t)) else PBounds in
  let+ (cb', vals', ti') :=
    foldC (unassign_step_q dbg) (skipn target (t_steps t)) (cb, p_values p, t_index t) in
  Ret ((p_set_vt p vals'
         (mkTrail ti' (firstn target (t_steps t)) (Nat.min (t_propagated t) target)
                  (firstn (level + 1) (t_decisions t))), cb'), 0).

(** add_literal, conflict_analysis.rs 212-239 *)
Definition add_literal_q (t : trail) (st : analysis * callbacks) (l : lit)
  : res ((analysis * callbacks) * nat) :=
  let '(an, cb) := st in
  let+ i := units 0 (trail_index t l) in
  let+ s := units 0 (vget (t_steps t) i) in
  let lit_level := s_level s in
  if Nat.eqb lit_level 0 then Ret ((an, cb), 0)
  else
    let+ old := units 0 (vget (an_current an) i) in
    let+ cur := units 0 (vset (an_current an) i true) in
    let an1 := an_set_current an cur in
    if old then Ret ((an1, cb), 0)
    else
      let+ cb1 := cb_var_in_conflict_q cb l in
      if Nat.eqb lit_level (decision_level t)
      then Ret ((an_set_count an1 (an_count an1 + 1), cb1), 0)
      else Ret ((an_set_derived an1 (an_derived an1 ++ [l]), cb1), 0).
(** The backwards scan of the trail, conflict_analysis.rs 142-186 *)
Fixpoint uip_loop_q (n : nat) (p : prop) (an : analysis) (cb : callbacks)
  : res ((prop * analysis * callbacks) * nat) :=
  match n with
  | O => Ret ((p, an, cb), 0)
  | S i =>
      let t := p_trail p in
      let+ cur := units 0 (vget (an_current an) i) in
      let+ cs := units 0 (vset (an_current an) i false) in
      let an1 := an_set_current an cs in
      if negb cur then uip_loop_q i p an1 cb
      else
        let+ s := units 0 (vget (t_steps t) i) in
        guard Nat.ltb 0 (an_count an1) else PArith in
        let an2 := an_set_count an1 (an_count an1 - 1) in
        if Nat.eqb (an_count an2) 0 then
          let+ cs' := units 0 (foldM (fun c l =>
              let* j := trail_index t l in vset c j false) (an_derived an2) (an_current an2)) in
          Ret ((p, an_set_derived (an_set_current an2 cs')
                    (an_derived an2 ++ [lnot (s_lit s)]), cb), 0)
        else
          let+ (p1, an3) := units 0
            (match s_reason s with
            | RLong c =>
                let* (a', g') := bump_long_clause t (p_long p) c (an_glue_flags an2) in
                Ret (p_set_long p a', an_set_glue an2 g')
            | _ => Ret (p, an2)
            end) in
          let+ rl := units 0 (reason_lits (p_long p1) (s_reason s)) in
          let+ (an4, cb') := foldC (add_literal_q t) rl (an3, cb) in
          uip_loop_q i p1 an4 cb'
  end.
(** derive_1uip_clause, conflict_analysis.rs 110-191 *)
Definition derive_1uip_clause_q (an : analysis) (p : prop) (c : conflict) (cb : callbacks)
  : res ((prop * analysis * callbacks) * nat) :=
  let t := p_trail p in
  let an1 := update_trail_len (an_set_derived an []) t in
  let+ (p1, an2) := units 0
    (match c with
    | CLong c =>
        let* (a', g') := bump_long_clause t (p_long p) c (an_glue_flags an1) in
        Ret (p_set_long p a', an_set_glue an1 g')
    | _ => Ret (p, an1)
    end) in
  let+ ls := units 0 (conflict_lits (p_long p1) c) in
  let+ (an3, cb') := foldC (add_literal_q t) ls (an2, cb) in
  let+ (p2, an4, cb'') := uip_loop_q (length (t_steps t)) p1 an3 cb' in
  guard Nat.eqb (an_count an4) 0 else PAssert in
  Ret ((p2, an4, cb''), 0).
(** analyze_conflict, conflict_analysis.rs 82-104 *)
Definition analyze_conflict_q (dbg : bool) (cx : ctx) (an : analysis) (p : prop)
    (c : conflict) (cb : callbacks) : res ((ctx * analysis * prop * callbacks) * nat) :=
  guard negb (Nat.eqb (decision_level (p_trail p)) 0) else PAssert in
  let+ (p1, an1, cb1) := derive_1uip_clause_q an p c cb in
  let cb2 := cb_analyzed_conflict cb1 in
  let+ (level, an2) := units 0 (minimize_derived_clause an1 p1) in
  let+ (p2, cb3) := backtrack_to_level_q dbg p1 level cb2 in
  let+ (cx', an3, p3) := units 0 (learn_and_assign dbg cx an2 p2) in
  Ret ((cx', an3, p3, cb3), 0).

(** restart, search.rs 111-126 *)
Definition restart_q (dbg : bool) (cx : ctx) (se : search) : res ((ctx * search) * nat) :=
  let cx1 := bump_restarts cx in
  if Nat.ltb 0 (decision_level (p_trail (se_prop se))) then
    let+ (p, cb) := backtrack_to_level_q dbg (se_prop se) 0 (mkCb (se_vsids se) (se_phases se)) in
    Ret ((cx1, mkSearch p (se_analysis se) (cb_vsids cb) (cb_phases cb)), 0)
  else Ret ((cx1, se), 0).
(** search_step, search.rs 41-86 *)
Definition search_step_q (dbg : bool) (cx : ctx) (se : search)
  : res ((option bool * ctx * search) * nat) :=
  if p_unsat (se_prop se) then Ret ((Some false, cx, se), 0)
  else
    let+ p0 := units 0 (prop_collect_garbage dbg (se_prop se)) in
    let+ (cx1, p1, r) := units 0 (propagate dbg cx p0) in
    match r with
    | Some c =>
        let cx2 := bump_conflicts cx1 in
        if Nat.eqb (decision_level (p_trail p1)) 0 then
          Ret ((Some false, cx2,
               mkSearch (p_set_unsat p1 true) (se_analysis se) (se_vsids se) (se_phases se)), 0)
        else
          let+ (cx3, an, p2, cb) :=
            analyze_conflict_q dbg cx2 (se_analysis se) p1 c
              (mkCb (se_vsids se) (se_phases se)) in
          Ret ((None, cx3, mkSearch p2 an (cb_vsids cb) (cb_phases cb)), 0)
    | None =>
        let+ (ov, vs) := pop_decision_var_q (se_vsids se) (p_values p1) in
        match ov with
        | Some v =>
            let cx2 := bump_decisions cx1 in
            let+ l := units 0 (decide_phase (se_phases se) v) in
            let+ p2 := units 0 (assign_decision dbg p1 l) in
            Ret ((None, cx2, mkSearch p2 (se_analysis se) vs (se_phases se)), 0)
        | None =>
            Ret ((Some true, cx1, mkSearch p1 (se_analysis se) vs (se_phases se)), 0)
        end
    end.
(** schedule_search_step, state.rs 31-42 *)
Definition schedule_search_step_q (select : list (N * cref) -> nat -> list (N * cref) * (N * cref) * list (N * cref))
    (dbg : bool) (cx : ctx) (st : state)
  : res ((option bool * ctx * state) * nat) :=
  let '(do_restart, sc1) := should_restart cx (sta_schedule st) in
  let+ (cx1, se1) :=
    (if do_restart then restart_q dbg cx (sta_search st) else Ret ((cx, sta_search st), 0)) in
  let '(do_reduce, sc2) := should_reduce cx1 sc1 in
  let+ (cx2, se2) := units 0
    (if do_reduce then
      let* (cx2, se2) := reduce select cx1 se1 in
      let* _ := report dbg cx2 in
      Ret (cx2, se2)
    else Ret (cx1, se1)) in
  let+ (r, cx3, se3) := search_step_q dbg cx2 se2 in
  Ret ((r, cx3, mkState se3 sc2), 0).
