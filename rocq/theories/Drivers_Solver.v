(** Histories of calls of the public [Solver] API.

    [built dbg F s]: [s] is a solver on which no [solve] was called yet; the
    clauses [F] were added, in this order (a proof writer may have been
    installed and removed in between).

    [reach select dbg F s]: [s] is a state of a solver to which the clauses [F]
    were added: any state at the beginning or end of a search step of any number
    of (complete or unfinished) [solve] calls.  The proof writer may be removed
    at any time.  Clauses are added before the first [solve], or later if
    [watchable s c]: the clause has no literal, or at least two literals the
    first two of which are not false according to [value] (other late clauses
    break the solver, see [incremental_refuted] in Prop_Solver.v). *)
From Coq Require Import NArith List Bool.
From Verif Require Import Model_Base Model_Lit Model_Arena Model_Prop Model_Solver Spec.
Import ListNotations.

Inductive built (dbg : bool) : list (list N) -> solver -> Prop :=
| built_new : built dbg [] solver_new
| built_add F s c s' : built dbg F s -> valid_clause c ->
    solver_add_clause dbg s c = Ret s' -> built dbg (F ++ [c]) s'
| built_write_proof F s : built dbg F s -> built dbg F (solver_write_proof s)
| built_close_proof F s : built dbg F s -> built dbg F (solver_close_proof s).

Definition selection := list (N * nat) -> nat -> list (N * nat) * (N * nat) * list (N * nat).

Definition watchable (s : solver) (c : list N) : Prop :=
  match c with
  | [] => True
  | [_] => False
  | a :: b :: _ => solver_value s a <> Ret (Some false) /\ solver_value s b <> Ret (Some false)
  end.

Inductive reach (select : selection) (dbg : bool) : list (list N) -> solver -> Prop :=
| reach_built F s : built dbg F s -> reach select dbg F s
| reach_step F s r cx st : reach select dbg F s ->
    schedule_search_step select dbg (so_ctx s) (so_state s) = Ret (r, cx, st) ->
    reach select dbg F (mkSolver cx st)
| reach_close_proof F s : reach select dbg F s -> reach select dbg F (solver_close_proof s)
| reach_add F s c s' : reach select dbg F s -> valid_clause c -> watchable s c ->
    solver_add_clause dbg s c = Ret s' -> reach select dbg (F ++ [c]) s'.

(** Adding several clauses, each of them [watchable] when it is added. *)
Inductive adds_watchable (dbg : bool) : solver -> list (list N) -> solver -> Prop :=
| aw_nil s : adds_watchable dbg s [] s
| aw_cons s c s1 G s2 : valid_clause c -> watchable s c -> solver_add_clause dbg s c = Ret s1 ->
    adds_watchable dbg s1 G s2 -> adds_watchable dbg s (c :: G) s2.

(** How many clauses have exactly one literal. *)
Definition unit_clauses (F : list (list N)) : nat := length (filter (fun c => Nat.eqb (length c) 1) F).
(** No unit clause occurs twice. *)
Definition distinct_units (F : list (list N)) : Prop := NoDup (filter (fun c => Nat.eqb (length c) 1) F).

(** The literals of the unit clauses in the order they were added, without those that
    contradict an earlier one *)
Definition take_unit (T : list N) (c : list N) : list N :=
  match c with [l] => if existsb (N.eqb (neg l)) T then T else T ++ [l] | _ => T end.
Definition taken_units (F : list (list N)) : list N := fold_left take_unit F [].

(** The calls made on the proof writer, as steps of a clausal proof. *)
Definition to_pstep (s : proof_step) : pstep :=
  match s with PAdd c => Add c | PDelete c => Del c end.
Definition proof_log (s : solver) : option (list pstep) :=
  option_map (map to_pstep) (cx_proof (so_ctx s)).

(** Several [solve] calls in a row and their answers. *)
Inductive solves (select : selection) (dbg : bool) : solver -> list bool -> solver -> Prop :=
| solves_nil s : solves select dbg s [] s
| solves_cons fuel s b s1 bs s2 : solve select dbg fuel s = Ret (b, s1) ->
    solves select dbg s1 bs s2 -> solves select dbg s (b :: bs) s2.

(** The number of 32-bit words in the clause arena, and whether the next clause
    would start beyond the addressable 2^32 words. *)
Definition arena_words (s : solver) : nat := length (a_buffer (p_long (se_prop (sta_search (so_state s))))).
Definition arena_full (s : solver) : Prop := (2 ^ 32 <= N.of_nat (arena_words s))%N.

(** A clause the solver currently stores: in the arena, in the binary lists, or
    as a top-level assignment. *)
Definition stored_clause (s : solver) (c : list N) : Prop :=
  let p := se_prop (sta_search (so_state s)) in
  (exists r, long_lits (p_long p) r = Ret c /\ c <> []) \/
  (exists a b, c = [a; b] /\ exists bs, bin_containing (p_binary p) a = Ret bs /\ In b bs) \/
  (exists l x, c = [l] /\ In x (t_steps (p_trail p)) /\ s_lit x = l /\ s_level x = 0).
