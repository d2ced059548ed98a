(** Histories of calls of the public [Solver] API with everything a caller
    observes.  Unlike the histories of Drivers_Solver.v they are arbitrary
    sequences of calls: clauses may be added at any time. *)
From Coq Require Import NArith List Bool.
From Verif Require Import Model_Base Model_Lit Model_Prop Model_Solver Drivers_Solver.
Import ListNotations.

(** solver.rs 23-77 *)
Inductive call := CAdd (c : list N) | CSolve | CValue (l : N) | CWriteProof | CCloseProof.
(** The result of a call, with the statistics ([ctx.stats]) after it.  Closing the
    proof observes the steps written to it. *)
Inductive result := RAdd | RSolve (b : bool) | RValue (o : option bool) | RWriteProof | RCloseProof (log : option (list proof_step)).
Notation seen := (list (result * stats)) (only parsing).

Definition call_result (select : selection) (dbg : bool) (fuel : nat) (s : solver) (c : call) : res (result * solver) :=
  match c with
  | CAdd c => let* s' := solver_add_clause dbg s c in Ret (RAdd, s')
  | CSolve => let* (b, s') := solve select dbg fuel s in Ret (RSolve b, s')
  | CValue l => let* o := solver_value s l in Ret (RValue o, s)
  | CWriteProof => Ret (RWriteProof, solver_write_proof s)
  | CCloseProof => Ret (RCloseProof (cx_proof (so_ctx s)), solver_close_proof s)
  end.
(** [api select dbg fuel s calls]: what is seen when the calls are made, one after
    the other ([fuel] bounds the number of search steps of each [solve]). *)
Fixpoint api (select : selection) (dbg : bool) (fuel : nat) (s : solver) (calls : list call) : res seen :=
  match calls with
  | [] => Ret []
  | c :: rest =>
      let* (r, s') := call_result select dbg fuel s c in
      let* rs := api select dbg fuel s' rest in
      Ret ((r, cx_stats (so_ctx s')) :: rs)
  end.

(** The calls, and results, that do not concern the proof. *)
Definition plain_call (c : call) : bool := match c with CWriteProof | CCloseProof => false | _ => true end.
Definition plain_result (r : result * stats) : bool := match fst r with RWriteProof | RCloseProof _ => false | _ => true end.
