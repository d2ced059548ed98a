(** Proof files with write errors: the buffered writer behind
    /repo/starlit/src/proof/drat.rs and the order of events in
    /repo/starlit-cli/src/main.rs.

    [flussab::DeferredWriter] is external code, modelled after its documentation:
    it collects bytes in a buffer of a fixed capacity, hands them to the operating
    system when the buffer is full, keeps the first error and drops everything
    written after it.  The operating system may fail any write request after
    writing any part of it.  Not modelled: errors on standard output. *)
From Coq Require Import NArith ZArith List Bool Arith.
From Verif Require Import Model_Base Model_Lit Model_Prop Model_Solver Model_Drat Model_Arena Model_Cli.
Import ListNotations.

(** [w i = Some k]: the [i]-th write request fails after [k] bytes. The environment
    of starlit-cli/src/main.rs 64-69. *)
Definition faults := nat -> option nat.
(** The content of the file and the number of write requests so far. The file of
    starlit-cli/src/main.rs 64-69. *)
Record os := mkOs { os_file : list N; os_calls : nat }.
(** [std::io::Write::write_all] on a file: no request for an empty slice. Called by
    the writer of proof/drat.rs 5-7, 37-39. *)
Definition os_write (w : faults) (o : os) (bs : list N) : bool * os :=
  match bs with
  | [] => (true, o)
  | _ => match w (os_calls o) with
         | None => (true, mkOs (os_file o ++ bs) (S (os_calls o)))
         | Some k => (false, mkOs (os_file o ++ firstn k bs) (S (os_calls o)))
         end
  end.

(** [flussab::DeferredWriter], the [target] of proof/drat.rs 5-7, 37-39 *)
Record dwriter := mkDw { dw_os : os; dw_buf : list N; dw_err : bool }.
(** DeferredWriter::from_write on a new file: starlit-cli/src/main.rs 64-69 *)
Definition dw_new : dwriter := mkDw (mkOs [] 0) [] false.
(** DeferredWriter::flush_defer_err: Called in proof/drat.rs 31, 78. *)
Definition dw_flush (w : faults) (d : dwriter) : dwriter :=
  if dw_err d then mkDw (dw_os d) [] true
  else let '(ok, o) := os_write w (dw_os d) (dw_buf d) in mkDw o [] (negb ok).
(** DeferredWriter::write_all_defer_err: small slices fill the buffer first, the
    rest of a large one is written directly. Called in proof/drat.rs 20-26, 51-73. *)
Definition dw_write (w : faults) (cap : nat) (d : dwriter) (bs : list N) : dwriter :=
  if length (dw_buf d) + length bs <=? cap then mkDw (dw_os d) (dw_buf d ++ bs) (dw_err d)
  else
    let k := if length bs <? cap then cap - length (dw_buf d) else 0 in
    let d1 := dw_flush w (mkDw (dw_os d) (dw_buf d ++ firstn k bs) (dw_err d)) in
    let rest := skipn k bs in
    if length rest <? cap then mkDw (dw_os d1) (dw_buf d1 ++ rest) (dw_err d1)
    else if dw_err d1 then d1
    else let '(ok, o) := os_write w (dw_os d1) rest in mkDw o (dw_buf d1) (negb ok).
(** DeferredWriter::check_io_error: [true] is an error, which is taken. Called in
    proof/drat.rs 32, 79. *)
Definition dw_check (d : dwriter) : bool * dwriter := (dw_err d, mkDw (dw_os d) (dw_buf d) false).

(** The slices handed to the writer, one by one, by Drat::add_clause and
    Drat::delete_clause, proof/drat.rs 17-28 *)
Definition drat_chunks (s : proof_step) : list (list N) :=
  match s with
  | PAdd c => flat_map (fun l => [ascii_digits (lit_dimacs l); [32%N]]) c ++ [[48; 10]%N]
  | PDelete c => [[100; 32]%N] ++ flat_map (fun l => [ascii_digits (lit_dimacs l); [32%N]]) c ++ [[48; 10]%N]
  end.
(** BinaryDrat::add_clause, delete_clause, write_lits and write_lit, proof/drat.rs
    47-75; every byte is a slice of its own. *)
Definition bdrat_chunks (s : proof_step) : res (list (list N)) :=
  let* bs := bdrat_step s in Ret (map (fun b => [b]) bs).
(** The slices for a sequence of proof calls, proof/drat.rs 16-28, 66-75 *)
Definition chunks (f : proof_format) (log : list proof_step) : res (list (list N)) :=
  match f with
  | FmtDrat => Ret (flat_map drat_chunks log)
  | FmtBinaryDrat => let* cs := mapM bdrat_chunks log in Ret (concat cs)
  end.
(** A sequence of writes, proof/drat.rs 17-28, 47-75 *)
Definition dw_writes (w : faults) (cap : nat) (cs : list (list N)) (d : dwriter) : dwriter :=
  fold_left (dw_write w cap) cs d.

(** Drat::flush and BinaryDrat::flush, 30-33 and 77-80; [true] is an error.  Then
    [close_proof] (solver.rs 57-62) drops the writer, whose buffer is empty. *)
Definition dw_close (w : faults) (d : dwriter) : bool * dwriter := dw_check (dw_flush w d).

(** ** The program with errors *)

(** What is at the path of the proof file. starlit-cli/src/main.rs 64-69 *)
Inductive path_state := PathFree | PathExists (content : list N) | PathUnusable.
(** What opening and parsing the input gives: an error before the header is read,
    no header, or the number of variables and the clauses, up to an error if [ok]
    is false. starlit-cli/src/main.rs 77-88 *)
Inductive input := InError | InNoHeader | InClauses (var_count : nat) (clauses : list (list lit)) (ok : bool).

(** The result lines printed, the exit code, the content of the proof file (if
    there is a file) and the number of write requests made for it.
    starlit-cli/src/main.rs 46-145 *)
Record outcome := mkOutcome { oc_out : list (list N); oc_code : nat; oc_file : option (list N); oc_requests : nat }.

(** main, starlit-cli/src/main.rs 46-145. Errors returned by [main] print nothing
    to standard output and give exit code 1; the solver is dropped, and the writer
    with it, which writes what is left in its buffer. *)
Definition cli_io
    (select : list (N * cref) -> nat -> list (N * cref) * (N * cref) * list (N * cref))
    (dbg : bool) (fuel : nat) (w : faults) (cap : nat)
    (pf : option (proof_format * path_state)) (inp : input) : res outcome :=
  match pf with
  | Some (_, PathExists content) => Ret (mkOutcome [] 1 (Some content) 0)
  | Some (_, PathUnusable) => Ret (mkOutcome [] 1 None 0)
  | _ =>
      let created := match pf with Some _ => Some [] | None => None end in
      match inp with
      | InError | InNoHeader => Ret (mkOutcome [] 1 created 0)
      | InClauses n cls ok =>
          let s0 := match pf with Some _ => solver_write_proof solver_new | None => solver_new end in
          let* s1 := add_clauses dbg s0 cls in
          if negb ok then
            match pf, cx_proof (so_ctx s1) with
            | Some (f, _), Some log =>
                let* cs := chunks f log in
                let d := dw_flush w (dw_writes w cap cs dw_new) in
                Ret (mkOutcome [] 1 (Some (os_file (dw_os d))) (os_calls (dw_os d)))
            | _, _ => Ret (mkOutcome [] 1 None 0)
            end
          else
            let* (sat, s2) := solve select dbg fuel s1 in
            let answer file k :=
              if sat then let* vs := v_lines (solver_value s2) n in Ret (mkOutcome (s_sat :: vs) 20 file k)
              else Ret (mkOutcome [s_unsat] 20 file k) in
            match pf, cx_proof (so_ctx s2) with
            | Some (f, _), Some log =>
                let* cs := chunks f log in
                let '(err, d) := dw_close w (dw_writes w cap cs dw_new) in
                if err then Ret (mkOutcome [] 1 (Some (os_file (dw_os d))) (os_calls (dw_os d)))
                else answer (Some (os_file (dw_os d))) (os_calls (dw_os d))
            | _, _ => answer None 0
            end
      end
  end.
