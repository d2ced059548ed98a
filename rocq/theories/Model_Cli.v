(** Model of /repo/starlit-cli/src/main.rs: feeding the parsed clauses to the
    solver, proof file, result lines and exit code.  Argument parsing (clap), the
    DIMACS parser (flussab_cnf), file errors and the logged statistics are not
    modelled. *)
From Coq Require Import NArith ZArith List Bool Arith.
From Verif Require Import Model_Base Model_Lit Model_Prop Model_Solver Model_Drat Model_Arena.
Import ListNotations.

(** [write!(&mut line, " {}", lit ^ !value)], starlit-cli/src/main.rs 126 and 132 *)
Definition v_item (l : lit) (value : bool) : list N :=
  (32 :: ascii_digits (lit_dimacs (lit_xor_bool l (negb value))))%N.

(** Loop starlit-cli/src/main.rs 120-135; state: lines printed so far (without line
    ends) and the current line. *)
Definition v_step (value : lit -> res (option bool)) (st : list (list N) * list N) (i : nat)
  : res (list (list N) * list N) :=
  let '(out, line) := st in
  let* l := lit_from_index (N.of_nat i) true in
  let* o := value l in
  match o with
  | None => Ret st
  | Some v =>
      let line' := line ++ v_item l v in
      if Nat.ltb 77 (length line')
      then Ret (out ++ [118%N :: line], v_item l v)
      else Ret (out, line')
  end.

(** starlit-cli/src/main.rs 118-139: all "v" lines *)
Definition v_lines (value : lit -> res (option bool)) (var_count : nat) : res (list (list N)) :=
  let* (out, line) := foldM (v_step value) (seq 0 var_count) ([], []) in
  Ret (out ++ match line with [] => [] | _ => [118%N :: line] end ++ [[118; 32; 48]%N]).

(** "s SATISFIABLE" / "s UNSATISFIABLE": starlit-cli/src/main.rs 117, 142 *)
Definition s_sat : list N :=
  [115; 32; 83; 65; 84; 73; 83; 70; 73; 65; 66; 76; 69]%N.
(** "s UNSATISFIABLE", starlit-cli/src/main.rs 142 *)
Definition s_unsat : list N :=
  [115; 32; 85; 78; 83; 65; 84; 73; 83; 70; 73; 65; 66; 76; 69]%N.

(** starlit-cli/src/main.rs 86-145: add the parsed clauses, solve, print; returns
    the printed result lines, the exit code and the final solver. *)
Definition cli_run
    (select : list (N * cref) -> nat -> list (N * cref) * (N * cref) * list (N * cref))
    (dbg : bool) (fuel : nat) (proof : bool) (var_count : nat) (clauses : list (list lit))
  : res (list (list N) * nat * solver) :=
  let s0 := if proof then solver_write_proof solver_new else solver_new in
  let* s1 := add_clauses dbg s0 clauses in
  let* (sat, s2) := solve select dbg fuel s1 in
  if sat then
    let* vs := v_lines (solver_value s2) var_count in
    Ret (s_sat :: vs, 20, s2)
  else Ret ([s_unsat], 20, s2).

(** ProofFormat, starlit-cli/src/main.rs 40-44 *)
Inductive proof_format := FmtDrat | FmtBinaryDrat.

(** The proof writers installed in starlit-cli/src/main.rs 73-76 (the model's proof
    log holds the calls made on the writer, here they become the bytes of the file,
    complete since [close_proof] flushes the writer). *)
Definition proof_bytes (f : proof_format) (log : list proof_step) : res (list N) :=
  match f with
  | FmtDrat => Ret (drat_output log)
  | FmtBinaryDrat => bdrat_output log
  end.

(** main, starlit-cli/src/main.rs 63-145: a proof is written if a proof file was
    given ([pf]); it is closed in 113. Returns the printed result lines, the exit
    code and the content of the proof file. *)
Definition cli_main
    (select : list (N * cref) -> nat -> list (N * cref) * (N * cref) * list (N * cref))
    (dbg : bool) (fuel : nat) (pf : option proof_format) (var_count : nat) (clauses : list (list lit))
  : res (list (list N) * nat * option (list N)) :=
  let* (out, code, s) :=
    cli_run select dbg fuel (match pf with Some _ => true | None => false end) var_count clauses in
  let* file := match pf, cx_proof (so_ctx s) with
               | Some f, Some log => let* bs := proof_bytes f log in Ret (Some bs)
               | _, _ => Ret None
               end in
  Ret (out, code, file).
