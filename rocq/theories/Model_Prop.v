(** Model of /repo/starlit/src/context.rs, stats.rs, prop.rs and prop/*.rs:
    clause storage, watch lists, trail, unit propagation. *)
From Coq Require Import NArith List Bool Arith.
From Verif Require Import Model_Base Model_Lit Model_PartialAssignment Model_Header
  Model_Arena Model_MutScan.
Import ListNotations.

(** ** Context *)

(** Calls made on the [Proof] writer (proof.rs 9-18); IO is not modelled. *)
Inductive proof_step := PAdd (lits : list lit) | PDelete (lits : list lit).

(** PropStats / FormulaStats (prop.rs 42-66), SearchStats (search.rs 130-141),
    Stats (stats.rs 11-15); 64-bit counters are unbounded here. *)
Record stats := mkStats {
  st_propagations : nat; st_fixed_vars : nat;
  st_binary : nat; st_irredundant : nat; st_redundant : nat; st_vars : nat;
  st_decisions : nat; st_conflicts : nat; st_restarts : nat; st_reductions : nat }.
(** Stats::default, stats.rs 9-15 (derived) *)
Definition stats_empty := mkStats 0 0 0 0 0 0 0 0 0 0.

(** Ctx (context.rs 9-17) without the logger.  An installed proof writer is the
    list of calls made on it so far. *)
Record ctx := mkCtx { cx_stats : stats; cx_proof : option (list proof_step) }.
(** Ctx::default, context.rs 9-17 (derived) *)
Definition ctx_empty := mkCtx stats_empty None.

(** A call of the proof writer if there is one, conflict_analysis.rs 299-301,
    search/reduce.rs 73-75 *)
Definition cx_log (cx : ctx) (s : proof_step) : ctx :=
  mkCtx (cx_stats cx)
    (match cx_proof cx with Some l => Some (l ++ [s]) | None => None end).
(** Assignment to [ctx.stats], context.rs 13-17 *)
Definition cx_with (cx : ctx) (s : stats) : ctx := mkCtx s (cx_proof cx).

(** ** Trail (prop/trail.rs) *)

(** Reason, prop/trail.rs 83-94 *)
Inductive reason := RDecision | RUnit | RBinary (l : lit) | RLong (c : cref).

(** Step, prop/trail.rs 111-124 *)
Record step := mkStep { s_lit : lit; s_level : nat; s_reason : reason }.

(** Trail, prop/trail.rs 129-156. [TrailIndex::UNASSIGNED] is [None]. *)
Record trail := mkTrail {
  t_index : list (option nat);
  t_steps : list step;
  t_propagated : nat;
  t_decisions : list nat }.
(** Trail::default, prop/trail.rs 147-156 *)
Definition trail_empty := mkTrail [] [] 0 [0].

(** Resize, prop/trail.rs 158-162 *)
Definition trail_resize (t : trail) (n : nat) : trail :=
  mkTrail (vresize (t_index t) n None) (t_steps t) (t_propagated t) (t_decisions t).

(** decision_level, prop/trail.rs 166-168; not cast to [u32] (see [indices_fit] in
    Prop_Width.v) *)
Definition decision_level (t : trail) : nat := length (t_decisions t) - 1.

(** trail_index, prop/trail.rs 180-184, for the variable of [l]. Reading
    [UNASSIGNED] fails the debug assertion; in release builds the value is
    [u32::MAX], every use of it as an index is out of bounds, so the model panics
    in both modes. *)
Definition trail_index (t : trail) (l : lit) : res nat :=
  let* i := vget (t_index t) (vidx l) in
  match i with
  | Some i => Ret i
  | None => Panic PDebug
  end.

(** step_for_var, prop/trail.rs 191-193 *)
Definition step_for_var (t : trail) (l : lit) : res step :=
  let* i := trail_index t l in vget (t_steps t) i.

(** next_unpropagated_lit, prop/trail.rs 205-209 *)
Definition next_unpropagated_lit (t : trail) : option lit :=
  option_map s_lit (nth_error (t_steps t) (t_propagated t)).

(** advance_propagated, prop/trail.rs 212-215 *)
Definition advance_propagated (dbg : bool) (t : trail) : res trail :=
  dassert dbg (Nat.ltb (t_propagated t) (length (t_steps t)))
    (Ret (mkTrail (t_index t) (t_steps t) (t_propagated t + 1) (t_decisions t))).

(** fixed_var_count, prop/trail.rs 223-228 *)
Definition fixed_var_count (t : trail) : nat :=
  match nth_error (t_decisions t) 1 with
  | Some i => i
  | None => length (t_steps t)
  end.

(** update_clause_references, prop/trail.rs 196-202 *)
Definition trail_update_refs (t : trail) (gaps : list gap) : res trail :=
  let* ss := mapM (fun s =>
      match s_reason s with
      | RLong c =>
          let* c' := gc_update gaps c in
          match c' with
          | Some c' => Ret (mkStep (s_lit s) (s_level s) (RLong c'))
          | None => Panic PUnwrap
          end
      | _ => Ret s
      end) (t_steps t) in
  Ret (mkTrail (t_index t) ss (t_propagated t) (t_decisions t)).

(** assign_raw, prop/trail.rs 232-237; the position is not cast to [u32] (it fits,
    see [indices_fit] in Prop_Width.v) *)
Definition assign_raw (dbg : bool) (vals : passign) (t : trail) (s : step)
  : res (passign * trail) :=
  let* ti := vset (t_index t) (vidx (s_lit s)) (Some (length (t_steps t))) in
  let* a := pa_is_assigned vals (lit_var (s_lit s)) in
  dassert dbg (negb a) (
    let* vals' := pa_assign vals (s_lit s) in
    Ret (vals', mkTrail ti (t_steps t ++ [s]) (t_propagated t) (t_decisions t))).

(** ** Binary clauses (prop/binary.rs) *)

(** BinaryClauses, prop/binary.rs 6-8: [by_lit] *)
Notation binaries := (list (list lit)) (only parsing).

(** add_clause, prop/binary.rs 12-18 *)
Definition bin_push (b : binaries) (watched implied : lit) : res binaries :=
  let* l := vget b (cidx watched) in vset b (cidx watched) (l ++ [implied]).
(** BinaryClauses::add_clause, prop/binary.rs 12-18 *)
Definition bin_add (b : binaries) (x y : lit) : res binaries :=
  let* b1 := bin_push b x y in bin_push b1 y x.

(** containing, prop/binary.rs 23-25 *)
Definition bin_containing (b : binaries) (l : lit) : res (list lit) := vget b (cidx l).

(** Resize, prop/binary.rs 28-32 *)
Definition bin_resize (b : binaries) (n : nat) : binaries := vresize b (n * 2) [].

(** ** Watch lists (prop/watch.rs) *)

(** Watch, prop/watch.rs 14-29 *)
Record watch := mkWatch { w_clause : cref; w_blocking : lit }.

(** Watches, prop/watch.rs 41-53 *)
Record watches := mkWatches { ws_by_lit : list (list watch); ws_enabled : bool }.
(** Watches::default, prop/watch.rs 46-53 *)
Definition watches_empty := mkWatches [] true.

(** push_watch, prop/watch.rs 89-92 *)
Definition push_watch (dbg : bool) (w : watches) (l : lit) (x : watch) : res watches :=
  dassert dbg (ws_enabled w) (
    let* wl := vget (ws_by_lit w) (cidx l) in
    let* bl := vset (ws_by_lit w) (cidx l) (wl ++ [x]) in
    Ret (mkWatches bl (ws_enabled w))).

(** watch_clause, prop/watch.rs 59-72 *)
Definition watch_push (w : watches) (l : lit) (x : watch) : res watches :=
  let* wl := vget (ws_by_lit w) (cidx l) in
  let* bl := vset (ws_by_lit w) (cidx l) (wl ++ [x]) in
  Ret (mkWatches bl (ws_enabled w)).
(** watch_clause, prop/watch.rs 59-72 *)
Definition watch_clause (w : watches) (c : cref) (l0 l1 : lit) : res watches :=
  if ws_enabled w then
    let* w1 := watch_push w l0 (mkWatch c l1) in
    watch_push w1 l1 (mkWatch c l0)
  else Ret w.

(** take, prop/watch.rs 76-79 *)
Definition watches_take (dbg : bool) (w : watches) (l : lit) : res (list watch * watches) :=
  dassert dbg (ws_enabled w) (
    let* wl := vget (ws_by_lit w) (cidx l) in
    let* bl := vset (ws_by_lit w) (cidx l) [] in
    Ret (wl, mkWatches bl (ws_enabled w))).

(** restore, prop/watch.rs 82-86 *)
Definition watches_restore (dbg : bool) (w : watches) (l : lit) (ws : list watch)
  : res watches :=
  dassert dbg (ws_enabled w) (
    let* old := vget (ws_by_lit w) (cidx l) in
    dassert dbg (Nat.eqb (length old) 0) (
      let* bl := vset (ws_by_lit w) (cidx l) ws in
      Ret (mkWatches bl (ws_enabled w)))).

(** update_clause_references, prop/watch.rs 95-108; one [MutScan] per list *)
Definition watches_update_refs (dbg : bool) (w : watches) (gaps : list gap) : res watches :=
  dassert dbg (ws_enabled w) (
    let* bl := mapM (fun wl =>
        let* (_, wl') := scan_list (fun (u : unit) x =>
            let* c := gc_update gaps (w_clause x) in
            match c with
            | Some c => Ret (u, MSKeep (mkWatch c (w_blocking x)))
            | None => Ret (u, MSRemove)
            end) wl tt in
        Ret wl') (ws_by_lit w) in
    Ret (mkWatches bl (ws_enabled w))).

(** clear, prop/watch.rs 113-119 *)
Definition watches_clear (dbg : bool) (w : watches) : res watches :=
  dassert dbg (negb (ws_enabled w))
    (Ret (mkWatches (map (fun _ => []) (ws_by_lit w)) (ws_enabled w))).

(** Resize, prop/watch.rs 122-126 *)
Definition watches_resize (w : watches) (n : nat) : watches :=
  mkWatches (vresize (ws_by_lit w) (n * 2) []) (ws_enabled w).

(** ** Prop (prop.rs) *)

(** Prop, prop.rs 22-31 *)
Record prop := mkProp {
  p_unsat : bool;
  p_values : passign;
  p_binary : binaries;
  p_long : arena;
  p_watches : watches;
  p_trail : trail }.
(** Prop::default, prop.rs 22 (derived) *)
Definition prop_empty := mkProp false [] [] arena_empty watches_empty trail_empty.

(** Assignment to fields of Prop, prop.rs 22-31 *)
Definition p_set_unsat (p : prop) (b : bool) :=
  mkProp b (p_values p) (p_binary p) (p_long p) (p_watches p) (p_trail p).
(** Assignment to fields of Prop, prop.rs 22-31 *)
Definition p_set_vt (p : prop) (v : passign) (t : trail) :=
  mkProp (p_unsat p) v (p_binary p) (p_long p) (p_watches p) t.
(** Assignment to fields of Prop, prop.rs 22-31 *)
Definition p_set_binary (p : prop) (b : binaries) :=
  mkProp (p_unsat p) (p_values p) b (p_long p) (p_watches p) (p_trail p).
(** Assignment to fields of Prop, prop.rs 22-31 *)
Definition p_set_long (p : prop) (a : arena) :=
  mkProp (p_unsat p) (p_values p) (p_binary p) a (p_watches p) (p_trail p).
(** Assignment to fields of Prop, prop.rs 22-31 *)
Definition p_set_watches (p : prop) (w : watches) :=
  mkProp (p_unsat p) (p_values p) (p_binary p) (p_long p) w (p_trail p).
(** Assignment to fields of Prop, prop.rs 22-31 *)
Definition p_set_trail (p : prop) (t : trail) :=
  mkProp (p_unsat p) (p_values p) (p_binary p) (p_long p) (p_watches p) t.

(** Resize, prop.rs 33-40 *)
Definition prop_resize (p : prop) (n : nat) : prop :=
  mkProp (p_unsat p) (pa_resize (p_values p) n) (bin_resize (p_binary p) n) (p_long p)
    (watches_resize (p_watches p) n) (trail_resize (p_trail p) n).

(** trail::assign, trail.rs 240-242 *)
Definition assign (dbg : bool) (p : prop) (s : step) : res prop :=
  let* (v, t) := assign_raw dbg (p_values p) (p_trail p) s in
  Ret (p_set_vt p v t).

(** trail::assign_decision, trail.rs 245-255; the position is not cast to [u32]
    (see [indices_fit] in Prop_Width.v) *)
Definition assign_decision (dbg : bool) (p : prop) (l : lit) : res prop :=
  let t := p_trail p in
  let t' := mkTrail (t_index t) (t_steps t) (t_propagated t)
                    (t_decisions t ++ [length (t_steps t)]) in
  assign dbg (p_set_trail p t') (mkStep l (decision_level t') RDecision).

(** Reason::lits, trail.rs 98-107; slicing [1..] panics on an empty slice *)
Definition reason_lits (a : arena) (r : reason) : res (list lit) :=
  match r with
  | RDecision | RUnit => Ret []
  | RBinary l => Ret [l]
  | RLong c =>
      let* ls := long_lits a c in
      match ls with
      | [] => Panic PBounds
      | _ :: rest => Ret rest
      end
  end.

(** AddedClause, prop.rs 69-80 *)
Inductive added_clause := AEmpty | AUnit (l : lit) | ABinary (a b : lit) | ALong (c : cref).

(** add_clause_verbatim, prop.rs 85-128 *)
Definition add_clause_verbatim (dbg : bool) (cx : ctx) (p : prop) (h : long_header)
    (lits : list lit) : res (added_clause * ctx * prop) :=
  match lits with
  | [] => Ret (AEmpty, cx, p_set_unsat p true)
  | [a] =>
      let* f := pa_is_false (p_values p) a in
      if f then Ret (AEmpty, cx, p_set_unsat p true)
      else
        let* p' := assign dbg p (mkStep a 0 RUnit) in
        Ret (AUnit a, cx, p')
  | [a; b] =>
      let s := cx_stats cx in
      let cx' := cx_with cx (mkStats (st_propagations s) (st_fixed_vars s)
                   (st_binary s + 1) (st_irredundant s) (st_redundant s) (st_vars s)
                   (st_decisions s) (st_conflicts s) (st_restarts s) (st_reductions s)) in
      let* b' := bin_add (p_binary p) a b in
      Ret (ABinary a b, cx', p_set_binary p b')
  | a :: b :: _ =>
      let s := cx_stats cx in
      let cx' := cx_with cx
        (if lh_redundant h
         then mkStats (st_propagations s) (st_fixed_vars s)
                (st_binary s) (st_irredundant s) (st_redundant s + 1) (st_vars s)
                (st_decisions s) (st_conflicts s) (st_restarts s) (st_reductions s)
         else mkStats (st_propagations s) (st_fixed_vars s)
                (st_binary s) (st_irredundant s + 1) (st_redundant s) (st_vars s)
                (st_decisions s) (st_conflicts s) (st_restarts s) (st_reductions s)) in
      let* (oc, long') := long_add_clause (p_long p) h lits in
      match oc with
      | None => Panic PFull
      | Some c =>
          let* w' := watch_clause (p_watches p) c a b in
          Ret (ALong c, cx', p_set_watches (p_set_long p long') w')
      end
  end.

(** ConflictClause, prop.rs 131-147 *)
Inductive conflict := CBinary (a b : lit) | CLong (c : cref).
(** ConflictClause::lits, prop.rs 141-146 *)
Definition conflict_lits (a : arena) (c : conflict) : res (list lit) :=
  match c with
  | CBinary x y => Ret [x; y]
  | CLong c => long_lits a c
  end.

(** collect_garbage_now, prop.rs 157-168. Simplification: if the buffer is longer
    than [u32::MAX] words (16 GiB) the offsets stored in the gap list would be
    truncated ([collect_garbage] in Model_Arena.v models that); here such an
    oversized arena is reported as [PFull], like a failed [add_clause]. *)
Definition collect_garbage_now (dbg : bool) (p : prop) : res prop :=
  guard (N.of_nat (length (a_buffer (p_long p))) <=? LITIDX_MAX)%N else PFull in
  let* (long', gaps) := long_collect (p_long p) in
  let* t' := trail_update_refs (p_trail p) gaps in
  let* w' := watches_update_refs dbg (p_watches p) gaps in
  Ret (p_set_watches (p_set_trail (p_set_long p long') t') w').

(** collect_garbage, prop.rs 150-154 *)
Definition prop_collect_garbage (dbg : bool) (p : prop) : res prop :=
  if should_collect_garbage (p_long p) then collect_garbage_now dbg p else Ret p.

(** ** enable_watch_lists, rebuild_watch_lists (watch.rs 131-149) *)

(** The loop of rebuild_watch_lists, prop/watch.rs 144-148 *)
Fixpoint rebuild_loop (fuel : nat) (a : arena) (iter : option cref) (w : watches)
  : res watches :=
  match fuel with
  | O => OutOfFuel
  | S f =>
      let* n := long_next a iter in
      match n with
      | None => Ret w
      | Some c =>
          let* ls := long_lits a c in
          let* l0 := vget ls 0 in
          let* l1 := vget ls 1 in
          let* w' := watch_clause w c l0 l1 in
          rebuild_loop f a (Some c) w'
      end
  end.

(** rebuild_watch_lists, prop/watch.rs 143-149 *)
Definition rebuild_watch_lists (p : prop) : res prop :=
  let* w := rebuild_loop (S (length (a_buffer (p_long p)))) (p_long p) None (p_watches p) in
  Ret (p_set_watches p w).

(** enable_watch_lists, prop/watch.rs 131-140 *)
Definition enable_watch_lists (dbg : bool) (p : prop) (enabled : bool) : res prop :=
  if Bool.eqb (ws_enabled (p_watches p)) enabled then Ret p
  else
    let p1 := p_set_watches p (mkWatches (ws_by_lit (p_watches p)) enabled) in
    if enabled then rebuild_watch_lists p1
    else
      let* w := watches_clear dbg (p_watches p1) in
      Ret (p_set_watches p1 w).

(** ** Unit propagation (prop/unit_prop.rs) *)

(** propagate_binary_clauses, prop/unit_prop.rs 46-74: the loop over
    [containing(!lit)] *)
Fixpoint binary_loop (dbg : bool) (p : prop) (clause_lit : lit) (others : list lit)
  : res (prop * option conflict) :=
  match others with
  | [] => Ret (p, None)
  | other :: rest =>
      let* t := pa_is_true (p_values p) other in
      if t then binary_loop dbg p clause_lit rest
      else
        let* f := pa_is_false (p_values p) other in
        if f then Ret (p, Some (CBinary clause_lit other))
        else
          let* (v, tr) := assign_raw dbg (p_values p) (p_trail p)
                 (mkStep other (decision_level (p_trail p)) (RBinary clause_lit)) in
          binary_loop dbg (p_set_vt p v tr) clause_lit rest
  end.

(** propagate_binary_clauses, prop/unit_prop.rs 46-74 *)
Definition propagate_binary_clauses (dbg : bool) (p : prop) (l : lit)
  : res (prop * option conflict) :=
  let clause_lit := lnot l in
  let* others := bin_containing (p_binary p) clause_lit in
  binary_loop dbg p clause_lit others.

(** The circular search for a non-false literal, prop/unit_prop.rs 153-180. Returns
    the final position and the literal found, with whether it is true. *)
Fixpoint search_loop (vals : passign) (clause_lits : list lit) (search_len n search_pos : nat)
  : res (nat * option (lit * bool)) :=
  match n with
  | O => Ret (search_pos, None)
  | S n' =>
      let* search_lit := vget clause_lits (2 + search_pos) in
      let* f := pa_is_false vals search_lit in
      if negb f then
        let* t := pa_is_true vals search_lit in
        Ret (search_pos, Some (search_lit, t))
      else
        let sp := search_pos + 1 in
        search_loop vals clause_lits search_len n' (if Nat.eqb sp search_len then 0 else sp)
  end.

(** Writing [header.set_search_pos(pos)] through [header_and_lits_mut].
    prop/unit_prop.rs 160, 167, 181 *)
Definition store_search_pos (a : arena) (c : cref) (h : long_header) (pos : nat) : res arena :=
  long_set_header a c (lh_set_search_pos h (N.of_nat pos)).

(** Body of the ['outer] loop, prop/unit_prop.rs 88-213, for one watch. *)
Definition watch_body (dbg : bool) (watched_lit : lit) (st : prop * option conflict) (w : watch)
  : res ((prop * option conflict) * ms_action watch) :=
  let '(p, result) := st in
  let* b := pa_is_true (p_values p) (w_blocking w) in
  if b then Ret ((p, result), MSKeep w)
  else
    let* clause_lits := long_lits (p_long p) (w_clause w) in
    if Nat.ltb (length clause_lits) 2 then Ret ((p, result), MSRemove)
    else
      let* header := long_header_of (p_long p) (w_clause w) in
      let* l0 := vget clause_lits 0 in
      let* l1 := vget clause_lits 1 in
      let* other := select_other dbg watched_lit l0 l1 in
      let* ot := pa_is_true (p_values p) other in
      if ot then Ret ((p, result), MSKeep (mkWatch (w_clause w) other))
      else
        let search_len := length clause_lits - 2 in
        let* (search_pos, found) :=
          search_loop (p_values p) clause_lits search_len search_len
            (N.to_nat (lh_search_pos header)) in
        let* a1 := store_search_pos (p_long p) (w_clause w) header search_pos in
        match found with
        | Some (search_lit, true) =>
            Ret ((p_set_long p a1, result), MSKeep (mkWatch (w_clause w) search_lit))
        | Some (search_lit, false) =>
            let* ws := push_watch dbg (p_watches p) search_lit (mkWatch (w_clause w) other) in
            let ls := upd (upd (upd clause_lits 0 search_lit) 1 other) (2 + search_pos) watched_lit in
            let* a2 := long_set_lits a1 (w_clause w) ls in
            Ret ((p_set_watches (p_set_long p a2) ws, result), MSRemove)
        | None =>
            let* f := pa_is_false (p_values p) other in
            if f then Ret ((p_set_long p a1, Some (CLong (w_clause w))), MSKeepStop w)
            else
              let ls := upd (upd clause_lits 0 other) 1 watched_lit in
              let* a2 := long_set_lits a1 (w_clause w) ls in
              let* (v, tr) := assign_raw dbg (p_values p) (p_trail p)
                   (mkStep other (decision_level (p_trail p)) (RLong (w_clause w))) in
              Ret ((p_set_vt (p_set_long p a2) v tr, result), MSKeep w)
        end.

(** propagate_long_clauses, prop/unit_prop.rs 78-220 *)
Definition propagate_long_clauses (dbg : bool) (p : prop) (l : lit)
  : res (prop * option conflict) :=
  let watched_lit := lnot l in
  let* (wl, ws) := watches_take dbg (p_watches p) watched_lit in
  let p1 := p_set_watches p ws in
  let* (st, wl') := scan_list (watch_body dbg watched_lit) wl (p1, None) in
  let '(p2, result) := st in
  let* ws' := watches_restore dbg (p_watches p2) watched_lit wl' in
  Ret (p_set_watches p2 ws', result).

(** propagate_literal, prop/unit_prop.rs 39-42 *)
Definition propagate_literal (dbg : bool) (p : prop) (l : lit)
  : res (prop * option conflict) :=
  let* (p1, r) := propagate_binary_clauses dbg p l in
  match r with
  | Some c => Ret (p1, Some c)
  | None => propagate_long_clauses dbg p1 l
  end.

(** propagate, prop/unit_prop.rs 16-35: the [while let] loop *)
Fixpoint propagate_loop (fuel : nat) (dbg : bool) (p : prop) : res (prop * option conflict) :=
  match fuel with
  | O => OutOfFuel
  | S f =>
      match next_unpropagated_lit (p_trail p) with
      | None => Ret (p, None)
      | Some l =>
          let* (p1, r) := propagate_literal dbg p l in
          match r with
          | Some c => Ret (p1, Some c)
          | None =>
              let* t := advance_propagated dbg (p_trail p1) in
              propagate_loop f dbg (p_set_trail p1 t)
          end
      end
  end.

(** Every iteration propagates one step and the trail never holds more than one
    step per variable beyond the present ones. Fuel for prop/unit_prop.rs 16-35. *)
Definition propagate_fuel (p : prop) : nat :=
  S (length (t_steps (p_trail p)) + length (p_values p)).

(** propagate, prop/unit_prop.rs 16-35 *)
Definition propagate (dbg : bool) (cx : ctx) (p : prop) : res (ctx * prop * option conflict) :=
  let* p0 := enable_watch_lists dbg p true in
  let previously_propagated := t_propagated (p_trail p0) in
  let* (p1, r) := propagate_loop (propagate_fuel p0) dbg p0 in
  match r with
  | Some c => Ret (cx, p1, Some c)
  | None =>
      let newly_propagated := t_propagated (p_trail p1) - previously_propagated in
      let s := cx_stats cx in
      let fixed := if Nat.eqb (decision_level (p_trail p1)) 0
                   then fixed_var_count (p_trail p1) else st_fixed_vars s in
      let cx' := cx_with cx (mkStats (st_propagations s + newly_propagated) fixed
                   (st_binary s) (st_irredundant s) (st_redundant s) (st_vars s)
                   (st_decisions s) (st_conflicts s) (st_restarts s) (st_reductions s)) in
      Ret (cx', p1, None)
  end.
