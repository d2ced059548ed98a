(** Unit propagation with a counter for its work.

    The functions below repeat those of [Model_Prop] for
    /repo/starlit/src/prop/unit_prop.rs and count one unit for every binary clause
    visited (52-72), one for every watch visited (88) and one for every literal
    inspected by the circular search (153-180).  All other work of propagation is
    bounded by a constant per unit and per propagated literal.  That the results are
    those of the functions without a counter is [counted_propagate] in Prop_Work.v. *)
From Coq Require Import NArith List Bool Arith.
From Verif Require Import Model_Base Model_Lit Model_PartialAssignment Model_Header
  Model_MutScan Model_Arena Model_Prop Model_Cost.
Import ListNotations.

(** propagate_binary_clauses, prop/unit_prop.rs 46-74: the loop over
    [containing(!lit)] *)
Fixpoint binary_loop_n (dbg : bool) (p : prop) (clause_lit : lit) (others : list lit)
  : res ((prop * option conflict) * nat) :=
  match others with
  | [] => Ret ((p, None), 0)
  | other :: rest =>
      let+ t := units 1 (pa_is_true (p_values p) other) in
      if t then binary_loop_n dbg p clause_lit rest
      else
        let+ f := units 0 (pa_is_false (p_values p) other) in
        if f then Ret ((p, Some (CBinary clause_lit other)), 0)
        else
          let+ (v, tr) := units 0 (assign_raw dbg (p_values p) (p_trail p)
                 (mkStep other (decision_level (p_trail p)) (RBinary clause_lit))) in
          binary_loop_n dbg (p_set_vt p v tr) clause_lit rest
  end.

(** propagate_binary_clauses, prop/unit_prop.rs 46-74 *)
Definition propagate_binary_clauses_n (dbg : bool) (p : prop) (l : lit)
  : res ((prop * option conflict) * nat) :=
  let clause_lit := lnot l in
  let+ others := units 0 (bin_containing (p_binary p) clause_lit) in
  binary_loop_n dbg p clause_lit others.

(** The circular search for a non-false literal, prop/unit_prop.rs 153-180 *)
Fixpoint search_loop_n (vals : passign) (clause_lits : list lit) (search_len n search_pos : nat)
  : res ((nat * option (lit * bool)) * nat) :=
  match n with
  | O => Ret ((search_pos, None), 0)
  | S n' =>
      let+ search_lit := units 1 (vget clause_lits (2 + search_pos)) in
      let+ f := units 0 (pa_is_false vals search_lit) in
      if negb f then
        let+ t := units 0 (pa_is_true vals search_lit) in
        Ret ((search_pos, Some (search_lit, t)), 0)
      else
        let sp := search_pos + 1 in
        search_loop_n vals clause_lits search_len n' (if Nat.eqb sp search_len then 0 else sp)
  end.

(** Body of the ['outer] loop, prop/unit_prop.rs 88-213, for one watch *)
Definition watch_body_n (dbg : bool) (watched_lit : lit) (st : prop * option conflict) (w : watch)
  : res (((prop * option conflict) * ms_action watch) * nat) :=
  let '(p, result) := st in
  let+ b := units 1 (pa_is_true (p_values p) (w_blocking w)) in
  if b then Ret (((p, result), MSKeep w), 0)
  else
    let+ clause_lits := units 0 (long_lits (p_long p) (w_clause w)) in
    if Nat.ltb (length clause_lits) 2 then Ret (((p, result), MSRemove), 0)
    else
      let+ header := units 0 (long_header_of (p_long p) (w_clause w)) in
      let+ l0 := units 0 (vget clause_lits 0) in
      let+ l1 := units 0 (vget clause_lits 1) in
      let+ other := units 0 (select_other dbg watched_lit l0 l1) in
      let+ ot := units 0 (pa_is_true (p_values p) other) in
      if ot then Ret (((p, result), MSKeep (mkWatch (w_clause w) other)), 0)
      else
        let search_len := length clause_lits - 2 in
        let+ (search_pos, found) :=
          search_loop_n (p_values p) clause_lits search_len search_len
            (N.to_nat (lh_search_pos header)) in
        let+ a1 := units 0 (store_search_pos (p_long p) (w_clause w) header search_pos) in
        match found with
        | Some (search_lit, true) =>
            Ret (((p_set_long p a1, result), MSKeep (mkWatch (w_clause w) search_lit)), 0)
        | Some (search_lit, false) =>
            let+ ws := units 0 (push_watch dbg (p_watches p) search_lit (mkWatch (w_clause w) other)) in
            let ls := upd (upd (upd clause_lits 0 search_lit) 1 other) (2 + search_pos) watched_lit in
            let+ a2 := units 0 (long_set_lits a1 (w_clause w) ls) in
            Ret (((p_set_watches (p_set_long p a2) ws, result), MSRemove), 0)
        | None =>
            let+ f := units 0 (pa_is_false (p_values p) other) in
            if f then Ret (((p_set_long p a1, Some (CLong (w_clause w))), MSKeepStop w), 0)
            else
              let ls := upd (upd clause_lits 0 other) 1 watched_lit in
              let+ a2 := units 0 (long_set_lits a1 (w_clause w) ls) in
              let+ (v, tr) := units 0 (assign_raw dbg (p_values p) (p_trail p)
                   (mkStep other (decision_level (p_trail p)) (RLong (w_clause w)))) in
              Ret (((p_set_vt (p_set_long p a2) v tr, result), MSKeep w), 0)
        end.

(** The ['outer] loop itself, prop/unit_prop.rs 88-213 *)
Fixpoint watch_loop_n (dbg : bool) (watched_lit : lit) (v : list watch) (s : prop * option conflict)
  : res (((prop * option conflict) * list watch) * nat) :=
  match v with
  | [] => Ret ((s, []), 0)
  | x :: r =>
      let+ (s', act) := watch_body_n dbg watched_lit s x in
      match act with
      | MSKeep y => let+ (s'', r') := watch_loop_n dbg watched_lit r s' in Ret ((s'', y :: r'), 0)
      | MSRemove => watch_loop_n dbg watched_lit r s'
      | MSKeepStop y => Ret ((s', y :: r), 0)
      end
  end.

(** propagate_long_clauses, prop/unit_prop.rs 78-220 *)
Definition propagate_long_clauses_n (dbg : bool) (p : prop) (l : lit)
  : res ((prop * option conflict) * nat) :=
  let watched_lit := lnot l in
  let+ (wl, ws) := units 0 (watches_take dbg (p_watches p) watched_lit) in
  let p1 := p_set_watches p ws in
  let+ (st, wl') := watch_loop_n dbg watched_lit wl (p1, None) in
  let '(p2, result) := st in
  let+ ws' := units 0 (watches_restore dbg (p_watches p2) watched_lit wl') in
  Ret ((p_set_watches p2 ws', result), 0).

(** propagate_literal, prop/unit_prop.rs 39-42 *)
Definition propagate_literal_n (dbg : bool) (p : prop) (l : lit)
  : res ((prop * option conflict) * nat) :=
  let+ (p1, r) := propagate_binary_clauses_n dbg p l in
  match r with
  | Some c => Ret ((p1, Some c), 0)
  | None => propagate_long_clauses_n dbg p1 l
  end.

(** propagate, prop/unit_prop.rs 16-35: the [while let] loop *)
Fixpoint propagate_loop_n (fuel : nat) (dbg : bool) (p : prop) : res ((prop * option conflict) * nat) :=
  match fuel with
  | O => OutOfFuel
  | S f =>
      match next_unpropagated_lit (p_trail p) with
      | None => Ret ((p, None), 0)
      | Some l =>
          let+ (p1, r) := propagate_literal_n dbg p l in
          match r with
          | Some c => Ret ((p1, Some c), 0)
          | None =>
              let+ t := units 0 (advance_propagated dbg (p_trail p1)) in
              propagate_loop_n f dbg (p_set_trail p1 t)
          end
      end
  end.

(** propagate, prop/unit_prop.rs 16-35.  Building the watch lists (17) when they are
    disabled is not counted. *)
Definition propagate_n (dbg : bool) (cx : ctx) (p : prop) : res ((ctx * prop * option conflict) * nat) :=
  let+ p0 := units 0 (enable_watch_lists dbg p true) in
  let previously_propagated := t_propagated (p_trail p0) in
  let+ (p1, r) := propagate_loop_n (propagate_fuel p0) dbg p0 in
  match r with
  | Some c => Ret ((cx, p1, Some c), 0)
  | None =>
      let newly_propagated := t_propagated (p_trail p1) - previously_propagated in
      let s := cx_stats cx in
      let fixed := if Nat.eqb (decision_level (p_trail p1)) 0
                   then fixed_var_count (p_trail p1) else st_fixed_vars s in
      let cx' := cx_with cx (mkStats (st_propagations s + newly_propagated) fixed
                   (st_binary s) (st_irredundant s) (st_redundant s) (st_vars s)
                   (st_decisions s) (st_conflicts s) (st_restarts s) (st_reductions s)) in
      Ret ((cx', p1, None), 0)
  end.
