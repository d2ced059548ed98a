(** Model of prepare_for_backtracking, /repo/starlit/src/conflict_analysis.rs
    241-268: the alternative to clause minimization.  [analyze_conflict] contains
    the call in the dead branch of [if true] (95-99), "TODO make this
    configurable". *)
From Coq Require Import NArith List Bool Arith.
From Verif Require Import Model_Base Model_Lit Model_PartialAssignment Model_Header
  Model_Arena Model_Prop Model_Heap Model_Vsids Model_Analysis.
Import ListNotations.

(** The loop over the positions [is], conflict_analysis.rs 257-263 *)
Fixpoint prepare_loop (t : trail) (clause : list lit) (largest : nat) (is : list nat)
  : res (list lit * nat) :=
  match is with
  | [] => Ret (clause, largest)
  | i :: rest =>
      let* l := vget clause i in
      let* trail_index := trail_index t l in
      if Nat.ltb largest trail_index then
        let* clause' := vswap clause 1 i in
        prepare_loop t clause' trail_index rest
      else prepare_loop t clause largest rest
  end.

(** prepare_for_backtracking, conflict_analysis.rs 246-268.  For an empty clause
    [derived_clause_len - 1] overflows (debug) or is out of bounds (release); the
    model panics with the bounds error in both. *)
Definition prepare_for_backtracking (an : analysis) (p : prop) : res (nat * analysis) :=
  let t := p_trail p in
  let len := length (an_derived an) in
  let* clause := vswap (an_derived an) 0 (len - 1) in
  if Nat.ltb 1 len then
    let* l1 := vget clause 1 in
    let* largest := trail_index t l1 in
    let* (clause', largest') := prepare_loop t clause largest (seq 2 (len - 2)) in
    let* s := vget (t_steps t) largest' in
    Ret (s_level s, an_set_derived an clause')
  else Ret (0, an_set_derived an clause).

(** analyze_conflict, conflict_analysis.rs 82-104, with the constant [true] of line
    95 replaced by a parameter *)
Definition analyze_conflict_with (minimize : bool) (dbg : bool) (cx : ctx) (an : analysis) (p : prop)
    (c : conflict) (cb : callbacks) : res (ctx * analysis * prop * callbacks) :=
  guard negb (Nat.eqb (decision_level (p_trail p)) 0) else PAssert in
  let* (p1, an1, cb1) := derive_1uip_clause an p c cb in
  let cb2 := cb_analyzed_conflict cb1 in
  let* (level, an2) :=
    if minimize then minimize_derived_clause an1 p1 else prepare_for_backtracking an1 p1 in
  let* (p2, cb3) := backtrack_to_level dbg p1 level cb2 in
  let* (cx', an3, p3) := learn_and_assign dbg cx an2 p2 in
  Ret (cx', an3, p3, cb3).
