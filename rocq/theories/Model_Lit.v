(** Model of /repo/starlit/src/lit.rs.

    A [Var] is its index, a [Lit] is its code (lines 41-43, 203-205); the Rust
    types are transparent [u32] wrappers, here both are [N].  The constructors
    check the documented ranges, so "is a valid Lit" is [code <= MAX_CODE]. *)
From Coq Require Import NArith ZArith List Bool.
From Verif Require Import Model_Base.
Local Open Scope N_scope.

(** lit.rs 11, 88, 93, 97, 213 *)
Definition LITIDX_MAX : N := 4294967295.
(** lit.rs 88 *)
Definition MAX_INDEX : N := N.shiftr LITIDX_MAX 2.
(** lit.rs 93 *)
Definition MAX_VAR_COUNT : N := MAX_INDEX + 1.
(** lit.rs 97 *)
Definition MAX_DIMACS : N := MAX_INDEX + 1.
(** lit.rs 213 *)
Definition MAX_CODE : N := 2 * MAX_INDEX + 1.

(** Lit, lit.rs 203-205 *)
Notation lit := N (only parsing).
(** Var, lit.rs 41-43 *)
Notation var := N (only parsing).

(** Var::from_index, lit.rs 113-118 *)
Definition var_from_index (index : N) : res var :=
  guard index <=? MAX_INDEX else PAssert in Ret index.

(** Var::from_index_unchecked, lit.rs 126-131.  The cast to [u32] drops the
    bits above 32; so does it in [from_index], after the check. *)
Definition var_from_index_unchecked (dbg : bool) (index : N) : res var :=
  dassert dbg (index <=? MAX_INDEX) (Ret (N.land index LITIDX_MAX)).

(** Var::from_dimacs, lit.rs 104-107 *)
Definition var_from_dimacs (number : Z) : res var :=
  guard (0 <? number)%Z else PAssert in var_from_index (Z.to_N (number - 1)).

(** Var::dimacs, lit.rs 141-143 *)
Definition var_dimacs (v : var) : Z := Z.of_N (v + 1).

(** Lit::from_var, lit.rs 220-224 *)
Definition lit_from_var (v : var) (positive : bool) : lit :=
  N.lor (N.shiftl v 1) (if positive then 1 else 0).

(** Lit::from_index, lit.rs 230-232 *)
Definition lit_from_index (index : N) (positive : bool) : res lit :=
  let* v := var_from_index index in Ret (lit_from_var v positive).

(** Lit::from_index_unchecked, lit.rs 242-244.  The shift in [from_var] is one
    of a [u32]: for an index out of range its top bit is lost. *)
Definition lit_from_index_unchecked (dbg : bool) (index : N) (positive : bool) : res lit :=
  let* v := var_from_index_unchecked dbg index in
  Ret (N.land (lit_from_var v positive) LITIDX_MAX).

(** Lit::from_code_unchecked, lit.rs 265-270 *)
Definition lit_from_code_unchecked (dbg : bool) (code : N) : res lit :=
  dassert dbg (code <=? MAX_CODE) (Ret (N.land code LITIDX_MAX)).

(** Lit::from_code, lit.rs 250-255 *)
Definition lit_from_code (code : N) : res lit :=
  guard code <=? MAX_CODE else PAssert in Ret code.

(** Lit::from_dimacs, lit.rs 276-278; [number] ranges over [isize].  [isize::MIN.abs()]
    overflows in Rust; the model's [Z.abs] does not (both panic: MIN is out of range). *)
Definition lit_from_dimacs (number : Z) : res lit :=
  let* v := var_from_dimacs (Z.abs number) in
  Ret (lit_from_var v (0 <? number)%Z).

(** Lit::code / var / index, lit.rs 282-298 *)
Definition lit_code (l : lit) : N := l.
(** Lit::var, lit.rs 288-292 *)
Definition lit_var (l : lit) : var := N.shiftr l 1.

(** Lit::is_positive / is_negative, lit.rs 302-310 *)
Definition lit_is_positive (l : lit) : bool := negb (N.land l 1 =? 0).
(** Lit::is_negative, lit.rs 308-310 *)
Definition lit_is_negative (l : lit) : bool := N.land l 1 =? 0.

(** Lit::dimacs, lit.rs 314-316 *)
Definition lit_dimacs (l : lit) : Z :=
  (var_dimacs (lit_var l) * (if lit_is_positive l then 1 else -1))%Z.

(** Var as Ord, lit.rs 62-75 *)
Definition var_cmp (a b : var) : comparison := N.compare a b.
(** derived Ord of Lit, lit.rs 201 *)
Definition lit_cmp (a b : lit) : comparison := N.compare a b.

(** Lit::select_other, lit.rs 323-328 *)
Definition select_other (dbg : bool) (self a b : lit) : res lit :=
  dassert dbg ((self =? a) || (self =? b))
    (Ret (N.lxor (N.lxor self a) b)).

(** ops::Not, lit.rs 366-375 *)
Definition lnot (l : lit) : lit := N.lxor l 1.

(** ops::BitXor<bool>, lit.rs 377-386 *)
Definition lit_xor_bool (l : lit) (b : bool) : lit := N.lxor l (if b then 1 else 0).

(** VecMapIndex for Var / Lit (lit.rs 153-158, 338-350): the position of a
    literal or of its variable in a [VecMap]. *)
Definition cidx (l : lit) : nat := N.to_nat l.
(** VecMapIndex for Var and VecMapIndex<Var> for Lit, lit.rs 153-158, 345-350 *)
Definition vidx (l : lit) : nat := N.to_nat (N.shiftr l 1).
