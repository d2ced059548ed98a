(** Garbage collection with a counter for its work.

    The functions below repeat those of [Model_Arena], [Model_Prop] and
    [Model_Solver] for /repo/starlit/src/clause_arena.rs 386-522, prop/trail.rs
    196-202, prop/watch.rs 95-108, prop.rs 150-168, search.rs 41-86 and state.rs
    31-42.  They count one unit
    - for every word of the clause memory at which the search for the next clause
      stops,
    - for every word that is moved,
    - for every step of the trail, every watch list and every watch that is visited.
    The search steps, restarts and reductions that surround a collection count
    nothing.  That the results are those of the functions without a counter is
    [counted_collect] and [counted_schedule] in Prop_GcCost.v.  Looking up a
    reference is counted by [gc_search_n]; there it is one unit for every element
    compared. *)
From Coq Require Import NArith List Bool Arith.
From Verif Require Import Model_Base Model_Lit Model_PartialAssignment Model_Header
  Model_Arena Model_MutScan Model_Prop Model_Heap Model_Vsids Model_Analysis Model_Luby Model_Solver Model_Cost.
Import ListNotations.

(** No code of its own: [for_each] over a vector, trail.rs 197 and watch.rs 98 *)
Fixpoint mapC {A B} (f : A -> res (B * nat)) (l : list A) : res (list B * nat) :=
  match l with
  | [] => Ret ([], 0)
  | a :: r => let+ b := f a in let+ bs := mapC f r in Ret (b :: bs, 0)
  end.
(** A loop over a [MutScan], prop/watch.rs 97-107 *)
Fixpoint scanC {T S : Type} (f : S -> T -> res ((S * ms_action T) * nat)) (v : list T) (s : S)
  : res ((S * list T) * nat) :=
  match v with
  | [] => Ret ((s, []), 0)
  | x :: r =>
      let+ (s', act) := f s x in
      match act with
      | MSKeep y => let+ (s'', r') := scanC f r s' in Ret ((s'', y :: r'), 0)
      | MSRemove => scanC f r s'
      | MSKeepStop y => Ret ((s', y :: r), 0)
      end
  end.

(** find_clause, clause_arena.rs 386-405 *)
Fixpoint find_clause_loop_n (H fuel : nat) (buf : list N) (pos : nat) : res (option cref * nat) :=
  match fuel with
  | O => OutOfFuel
  | S f =>
      match nth_error buf pos with
      | None => Ret (None, 0)
      | Some w =>
          if has_marker w then
            if (w =? LEN_MARKER)%N then
              let+ n := units 1 (vget buf (pos + 1)) in
              find_clause_loop_n H f buf (pos + (N.to_nat n + H + 1))
            else Ret (Some (pos - H), 1)
          else let+ _ := units 1 (Ret tt) in find_clause_loop_n H f buf (pos + 1)
      end
  end.
(** find_clause, clause_arena.rs 386-405 *)
Definition find_clause_n (H : nat) (a : arena) (start : nat) : res (option cref * nat) :=
  find_clause_loop_n H (S (length (a_buffer a))) (a_buffer a) (start + H).
(** next_clause, clause_arena.rs 424-431 *)
Definition next_clause_n (H : nat) (a : arena) (c : option cref) : res (option cref * nat) :=
  let+ start :=
    units 0 (match c with
    | None => Ret 0
    | Some c => let* len := clause_len H a c in Ret (c + len + H + 1)
    end) in
  find_clause_n H a start.
(** The [while let] loop of collect_garbage, clause_arena.rs 490-505 *)
Fixpoint gc_loop_n (H fuel : nat) (a : arena) (read : option cref)
    (write_offset expected : nat) (gaps : list gap) : res ((arena * nat * nat * list gap) * nat) :=
  match fuel with
  | O => OutOfFuel
  | S f =>
      match read with
      | None => Ret ((a, write_offset, expected, gaps), 0)
      | Some c =>
          let+ read' := next_clause_n H a (Some c) in
          let+ len := units 0 (clause_len H a c) in
          let storage_size := len + H + 1 in
          let gaps' :=
            if negb (Nat.eqb c expected)
            then gaps ++ [mkGap (trunc32 expected) (trunc32 c) (trunc32 (c - write_offset))]
            else gaps in
          let+ ws := units storage_size (read_words (a_buffer a) c storage_size) in
          let a' := mkArena (write_words (a_buffer a) write_offset ws) (a_garbage a) in
          gc_loop_n H f a' read' (write_offset + storage_size) (c + storage_size) gaps'
      end
  end.
(** collect_garbage, clause_arena.rs 480-522 *)
Definition collect_garbage_n (H : nat) (a : arena) : res ((arena * list gap) * nat) :=
  let+ read := next_clause_n H a None in
  let+ (a1, write_offset, expected, gaps) :=
    gc_loop_n H (S (length (a_buffer a))) a read 0 0 [] in
  let read_offset := length (a_buffer a1) in
  let gaps' :=
    if negb (Nat.eqb read_offset expected)
    then gaps ++ [mkGap (trunc32 expected) (trunc32 read_offset)
                        (trunc32 (read_offset - write_offset))]
    else gaps in
  Ret ((mkArena (firstn write_offset (a_buffer a1)) 0, gaps'), 0).

(** update_clause_references, prop/trail.rs 196-202 *)
Definition trail_update_refs_n (t : trail) (gaps : list gap) : res (trail * nat) :=
  let+ ss := mapC (fun s => units 1 (
      match s_reason s with
      | RLong c =>
          let* c' := gc_update gaps c in
          match c' with
          | Some c' => Ret (mkStep (s_lit s) (s_level s) (RLong c'))
          | None => Panic PUnwrap
          end
      | _ => Ret s
      end)) (t_steps t) in
  Ret (mkTrail (t_index t) ss (t_propagated t) (t_decisions t), 0).
(** update_clause_references, prop/watch.rs 95-108 *)
Definition watches_update_refs_n (dbg : bool) (w : watches) (gaps : list gap) : res (watches * nat) :=
  dassert dbg (ws_enabled w) (
    let+ bl := mapC (fun wl =>
        let+ _ := units 1 (Ret tt) in
        let+ (_, wl') := scanC (fun (u : unit) x => units 1 (
            let* c := gc_update gaps (w_clause x) in
            match c with
            | Some c => Ret (u, MSKeep (mkWatch c (w_blocking x)))
            | None => Ret (u, MSRemove)
            end)) wl tt in
        Ret (wl', 0)) (ws_by_lit w) in
    Ret (mkWatches bl (ws_enabled w), 0)).
(** collect_garbage_now, prop.rs 157-168 *)
Definition collect_garbage_now_n (dbg : bool) (p : prop) : res (prop * nat) :=
  guard (N.of_nat (length (a_buffer (p_long p))) <=? LITIDX_MAX)%N else PFull in
  let+ (long', gaps) := collect_garbage_n LONG_HEADER_LEN (p_long p) in
  let+ t' := trail_update_refs_n (p_trail p) gaps in
  let+ w' := watches_update_refs_n dbg (p_watches p) gaps in
  Ret (p_set_watches (p_set_trail (p_set_long p long') t') w', 0).
(** collect_garbage, prop.rs 150-154 *)
Definition prop_collect_garbage_n (dbg : bool) (p : prop) : res (prop * nat) :=
  if should_collect_garbage (p_long p) then collect_garbage_now_n dbg p else Ret (p, 0).

(** search_step, search.rs 41-86 *)
Definition search_step_gc (dbg : bool) (cx : ctx) (se : search)
  : res ((option bool * ctx * search) * nat) :=
  if p_unsat (se_prop se) then Ret ((Some false, cx, se), 0)
  else
    let+ p0 := prop_collect_garbage_n dbg (se_prop se) in
    units 0 (
    let* (cx1, p1, r) := propagate dbg cx p0 in
    match r with
    | Some c =>
        let cx2 := bump_conflicts cx1 in
        if Nat.eqb (decision_level (p_trail p1)) 0 then
          Ret (Some false, cx2,
               mkSearch (p_set_unsat p1 true) (se_analysis se) (se_vsids se) (se_phases se))
        else
          let* (cx3, an, p2, cb) :=
            analyze_conflict dbg cx2 (se_analysis se) p1 c
              (mkCb (se_vsids se) (se_phases se)) in
          Ret (None, cx3, mkSearch p2 an (cb_vsids cb) (cb_phases cb))
    | None =>
        let* (ov, vs) := pop_decision_var (se_vsids se) (p_values p1) in
        match ov with
        | Some v =>
            let cx2 := bump_decisions cx1 in
            let* l := decide_phase (se_phases se) v in
            let* p2 := assign_decision dbg p1 l in
            Ret (None, cx2, mkSearch p2 (se_analysis se) vs (se_phases se))
        | None =>
            Ret (Some true, cx1, mkSearch p1 (se_analysis se) vs (se_phases se))
        end
    end).
(** schedule_search_step, state.rs 31-42 *)
Definition schedule_search_step_gc (select : list (N * cref) -> nat -> list (N * cref) * (N * cref) * list (N * cref))
    (dbg : bool) (cx : ctx) (st : state)
  : res ((option bool * ctx * state) * nat) :=
  let '(do_restart, sc1) := should_restart cx (sta_schedule st) in
  let+ (cx1, se1) := units 0
    (if do_restart then restart dbg cx (sta_search st) else Ret (cx, sta_search st)) in
  let '(do_reduce, sc2) := should_reduce cx1 sc1 in
  let+ (cx2, se2) := units 0
    (if do_reduce then
      let* (cx2, se2) := reduce select cx1 se1 in
      let* _ := report dbg cx2 in
      Ret (cx2, se2)
    else Ret (cx1, se1)) in
  let+ (r, cx3, se3) := search_step_gc dbg cx2 se2 in
  Ret ((r, cx3, mkState se3 sc2), 0).

(** ClauseRefGcMap::update, clause_arena.rs 564-596: the binary search (see
    [gc_search]) *)
Fixpoint gc_search_n (fuel : nat) (gaps : list gap) (c : cref) (lo size hi : nat) : res (nat * nat) :=
  match fuel with
  | O => OutOfFuel
  | S f =>
      if Nat.ltb lo hi then
        let mid := lo + size / 2 in
        let+ g := units 1 (vget gaps mid) in
        if Nat.ltb c (g_start g) then gc_search_n f gaps c lo (mid - lo) mid
        else gc_search_n f gaps c (mid + 1) (hi - (mid + 1)) hi
      else Ret (lo, 0)
  end.
