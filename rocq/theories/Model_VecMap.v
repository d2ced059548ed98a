(** Model of [VecMap] and of its key iterator
    (/repo/starlit/src/util/vec_map.rs), of the key types that index it
    (/repo/starlit/src/lit.rs 146-158, 331-350, prop/trail.rs 31-42, 69-80), and of the
    [Debug] and [Display] instances of variables and literals
    (lit.rs 160-172, 388-400).

    A [VecMap] is a list; [Range<usize>] is a pair of natural numbers. *)
From Coq Require Import NArith ZArith List Bool Arith.
From Verif Require Import Model_Base Model_Lit Model_Drat.
Import ListNotations.

(** The key types. util/vec_map.rs 106-117, lit.rs 146-158, 331-350, prop/trail.rs
    31-42, 69-80 *)
Inductive key_ty := KUsize | KVar | KLit | KLevel | KTrailIndex.

(** VecMapKey::vec_map_key_from_index: vec_map.rs 113-117, lit.rs 146-151, 331-336,
    trail.rs 38-42, 76-80; [index as u32] truncates *)
Definition key_from_index (t : key_ty) (i : nat) : res N :=
  match t with
  | KUsize => Ret (N.of_nat i)
  | KVar => var_from_index (N.of_nat i)
  | KLit => lit_from_code (N.of_nat i)
  | KLevel | KTrailIndex => Ret (N.of_nat i mod 4294967296)%N
  end.

(** VecMapIndex::vec_map_index: vec_map.rs 106-111, lit.rs 153-158, 338-343,
    trail.rs 31-36, 69-74 *)
Definition key_index (t : key_ty) (k : N) : nat :=
  match t with
  | KLit => cidx k
  | _ => N.to_nat k
  end.
(** VecMapIndex<Var> for Lit, lit.rs 345-350 *)
Definition lit_key_index (l : lit) : nat := vidx l.

(** Index, IndexMut, util/vec_map.rs 168-182 *)
Definition vm_get {A} (t : key_ty) (m : list A) (k : N) : res A := vget m (key_index t k).
(** IndexMut, util/vec_map.rs 177-182 *)
Definition vm_set {A} (t : key_ty) (m : list A) (k : N) (a : A) : res (list A) := vset m (key_index t k) a.
(** Index with a literal for its variable, util/vec_map.rs 168-175 with lit.rs
    345-350 *)
Definition vm_get_lit {A} (m : list A) (l : lit) : res A := vget m (lit_key_index l).

(** [Range<usize>] (standard library): next, nth, next_back, nth_back: Used in
    util/vec_map.rs 13-15. *)
Record range := mkRange { rg_start : nat; rg_end : nat }.
(** ExactSizeIterator::len for the standard library's range, used in
    util/vec_map.rs 84 *)
Definition range_len (r : range) : nat := rg_end r - rg_start r.
(** Iterator::next for the standard library's range, used in util/vec_map.rs 37 *)
Definition range_next (r : range) : option nat * range :=
  if rg_start r <? rg_end r then (Some (rg_start r), mkRange (S (rg_start r)) (rg_end r)) else (None, r).
(** Iterator::nth for the standard library's range, used in util/vec_map.rs 57 *)
Definition range_nth (r : range) (n : nat) : option nat * range :=
  if rg_start r + n <? rg_end r then (Some (rg_start r + n), mkRange (S (rg_start r + n)) (rg_end r))
  else (None, mkRange (rg_end r) (rg_end r)).
(** next_back for the standard library's range, used in util/vec_map.rs 68 *)
Definition range_next_back (r : range) : option nat * range :=
  if rg_start r <? rg_end r then (Some (rg_end r - 1), mkRange (rg_start r) (rg_end r - 1)) else (None, r).
(** nth_back for the standard library's range, used in util/vec_map.rs 73 *)
Definition range_nth_back (r : range) (n : nat) : option nat * range :=
  if n <? range_len r then (Some (rg_end r - n - 1), mkRange (rg_start r) (rg_end r - n - 1))
  else (None, mkRange (rg_start r) (rg_start r)).

(** keys, util/vec_map.rs 12-15 *)
Definition vm_keys {A} (m : list A) : range := mkRange 0 (length m).

(** VecMapKeys, util/vec_map.rs 28-86 *)
Definition key_opt (t : key_ty) (o : option nat * range) : res (option N * range) :=
  match o with
  | (None, r) => Ret (None, r)
  | (Some i, r) => let* k := key_from_index t i in Ret (Some k, r)
  end.
(** next, util/vec_map.rs 36-38 *)
Definition keys_next (t : key_ty) (r : range) := key_opt t (range_next r).
(** nth, util/vec_map.rs 56-58 *)
Definition keys_nth (t : key_ty) (r : range) (n : nat) := key_opt t (range_nth r n).
(** next_back, util/vec_map.rs 67-69 *)
Definition keys_next_back (t : key_ty) (r : range) := key_opt t (range_next_back r).
(** nth_back, util/vec_map.rs 72-74 *)
Definition keys_nth_back (t : key_ty) (r : range) (n : nat) := key_opt t (range_nth_back r n).
(** last, util/vec_map.rs 51-53 *)
Definition keys_last (t : key_ty) (r : range) : res (option N) :=
  let* (k, _) := key_opt t (range_next_back r) in Ret k.
(** count, util/vec_map.rs 46-48 *)
Definition keys_count (r : range) : nat := range_len r.
(** size_hint, util/vec_map.rs 41-43 *)
Definition keys_size_hint (r : range) : nat * option nat := (range_len r, Some (range_len r)).

(** Debug and Display for Var, lit.rs 160-172; for Lit, lit.rs 388-400 (without
    formatting options) *)
Definition var_display (v : var) : list N := ascii_digits (var_dimacs v).
(** Debug and Display for Lit, lit.rs 388-400 *)
Definition lit_display (l : lit) : list N := ascii_digits (lit_dimacs l).
