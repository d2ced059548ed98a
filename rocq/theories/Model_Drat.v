(** Model of /repo/starlit/src/proof/drat.rs: the bytes written for each call.
    [DeferredWriter] is the list of bytes written so far; IO errors are not
    modelled. *)
From Coq Require Import NArith ZArith List Bool Decimal.
From Verif Require Import Model_Base Model_Lit Model_Prop.
Import ListNotations.
Local Open Scope N_scope.

(** flussab::write::text::ascii_digits and [Display] for [isize] (external code):
    decimal digits with a leading minus sign. Used in proof/drat.rs 19. *)
Fixpoint uint_bytes (u : uint) : list N :=
  match u with
  | Nil => []
  | D0 r => 48 :: uint_bytes r | D1 r => 49 :: uint_bytes r
  | D2 r => 50 :: uint_bytes r | D3 r => 51 :: uint_bytes r
  | D4 r => 52 :: uint_bytes r | D5 r => 53 :: uint_bytes r
  | D6 r => 54 :: uint_bytes r | D7 r => 55 :: uint_bytes r
  | D8 r => 56 :: uint_bytes r | D9 r => 57 :: uint_bytes r
  end.
(** The same for signed numbers, used in proof/drat.rs 19. *)
Definition ascii_digits (z : Z) : list N :=
  (if (z <? 0)%Z then [45] else []) ++ uint_bytes (N.to_uint (Z.abs_N z)).

(** Drat::add_clause, proof/drat.rs 17-23 *)
Definition drat_add_clause (lits : list lit) : list N :=
  flat_map (fun l => ascii_digits (lit_dimacs l) ++ [32]) lits ++ [48; 10].

(** Drat::delete_clause, proof/drat.rs 25-28 *)
Definition drat_delete_clause (lits : list lit) : list N :=
  [100; 32] ++ drat_add_clause lits.

(** BinaryDrat::write_lit, proof/drat.rs 54-63. One unit of fuel per output byte; a
    [u32] code needs at most five. *)
Fixpoint write_varint (fuel : nat) (drat_code : N) : res (list N) :=
  match fuel with
  | O => OutOfFuel
  | S f =>
      if 128 <=? drat_code then
        let* r := write_varint f (N.shiftr drat_code 7) in
        Ret (N.lor (drat_code mod 256) 128 :: r)
      else Ret [drat_code mod 256]
  end.
(** BinaryDrat::write_lit, proof/drat.rs 54-63 *)
Definition bdrat_write_lit (l : lit) : res (list N) :=
  write_varint (S (N.size_nat (lnot l + 2))) (lnot l + 2).

(** BinaryDrat::write_lits, proof/drat.rs 47-52 *)
Definition bdrat_write_lits (lits : list lit) : res (list N) :=
  let* bs := mapM bdrat_write_lit lits in Ret (concat bs ++ [0]).

(** BinaryDrat::add_clause / delete_clause, proof/drat.rs 67-75 *)
Definition bdrat_add_clause (lits : list lit) : res (list N) :=
  let* b := bdrat_write_lits lits in Ret (97 :: b).
(** BinaryDrat::delete_clause, proof/drat.rs 72-75 *)
Definition bdrat_delete_clause (lits : list lit) : res (list N) :=
  let* b := bdrat_write_lits lits in Ret (100 :: b).

(** One proof call: Drat::add_clause or Drat::delete_clause, proof/drat.rs 17-28 *)
Definition drat_step (s : proof_step) : list N :=
  match s with PAdd c => drat_add_clause c | PDelete c => drat_delete_clause c end.
(** The complete output for a sequence of proof calls, proof/drat.rs 16-28 *)
Definition drat_output (log : list proof_step) : list N := flat_map drat_step log.

(** One proof call: BinaryDrat::add_clause or BinaryDrat::delete_clause,
    proof/drat.rs 67-75 *)
Definition bdrat_step (s : proof_step) : res (list N) :=
  match s with PAdd c => bdrat_add_clause c | PDelete c => bdrat_delete_clause c end.
(** The complete output for a sequence of proof calls, proof/drat.rs 66-75 *)
Definition bdrat_output (log : list proof_step) : res (list N) :=
  let* bs := mapM bdrat_step log in Ret (concat bs).
