(** Model of the accessors generated by [#[derive(Bitfield)]]
    (/repo/starlit-macros/src/bitfield.rs 11-164) for one attribute on one field of
    the unsigned integer type of [B] bits.

    Simplifications: the parser of the attribute is not modelled; the accessors'
    types are [bool] or unsigned integers; what rustc rejects in the generated code
    counts as rejected by [derive_bitfield]. *)
From Coq Require Import NArith List Bool.
Import ListNotations.
Local Open Scope N_scope.

(** The type of an accessor's value (BitfieldAccess::ty,
    starlit-macros/src/bitfield.rs 263-269). *)
Inductive access_ty := TBool | TUint (bits : N).
(** The width of the accessor's type, starlit-macros/src/bitfield.rs 263-269 *)
Definition ty_bits (t : access_ty) : N := match t with TBool => 1 | TUint b => b end.

(** Bitfield, starlit-macros/src/bitfield.rs 185-190: width, clamp flag and
    accessor of one declared range of bits *)
Record bf_decl := mkDecl { d_width : N; d_clamp : bool; d_access : option access_ty }.

(** What the generated getter and setter depend on. starlit-macros/src/bitfield.rs
    95-139 *)
Record accessor := mkAccessor { ac_offset : N; ac_width : N; ac_clamp : bool; ac_ty : access_ty }.

(** [value as T] for an unsigned type of [b] bits: starlit-macros/src/bitfield.rs
    111, 122, 124, 135 *)
Definition as_bits (b x : N) : N := x mod 2 ^ b.
(** [x << n], [!x] on an unsigned type of [b] bits: starlit-macros/src/bitfield.rs
    123-124, 134-135 *)
Definition shl (b x n : N) : N := as_bits b (N.shiftl x n).
(** [!x] on an unsigned type of [b] bits, starlit-macros/src/bitfield.rs 123, 134 *)
Definition not_bits (b x : N) : N := N.lxor x (N.ones b).

(** mask_value, starlit-macros/src/bitfield.rs 92: [u128::MAX >> (128 - width)] *)
Definition mask_value (width : N) : N := N.shiftr (N.ones 128) (128 - width).

(** getter, starlit-macros/src/bitfield.rs 95-115; [as bool] and [.clamp] on [bool]
    do not compile *)
Definition bf_getter (B : N) (a : accessor) (x : N) : N :=
  if ac_width a =? 1 then
    if N.land x (shl B 1 (ac_offset a)) =? 0 then 0 else 1
  else as_bits (ty_bits (ac_ty a)) (N.land (N.shiftr x (ac_offset a)) (as_bits B (mask_value (ac_width a)))).

(** setter, starlit-macros/src/bitfield.rs 116-139 *)
Definition bf_setter (B : N) (a : accessor) (x value : N) : N :=
  let mask := as_bits B (mask_value (ac_width a)) in
  let keep := N.land x (not_bits B (shl B mask (ac_offset a))) in
  if ac_clamp a then
    let value := N.min value (as_bits (ty_bits (ac_ty a)) (mask_value (ac_width a))) in
    N.lor keep (shl B (as_bits B value) (ac_offset a))
  else
    N.lor keep (shl B (N.land (as_bits B value) mask) (ac_offset a)).

(** the loop over the declarations, starlit-macros/src/bitfield.rs 54-143 *)
Definition compiles (d : bf_decl) : bool :=
  match d_access d with
  | Some TBool => (d_width d =? 1) && negb (d_clamp d)
  | _ => true
  end.
(** The loop over the declarations, starlit-macros/src/bitfield.rs 54-143 *)
Fixpoint derive_loop (ds : list bf_decl) (offset : N) : option (list (option accessor) * N) :=
  match ds with
  | [] => Some ([], offset)
  | d :: r =>
      if (1 <=? d_width d) && (d_width d <? 128) && compiles d then
        match derive_loop r (offset + d_width d) with
        | Some (acs, total) =>
            Some (option_map (mkAccessor offset (d_width d) (d_clamp d)) (d_access d) :: acs, total)
        | None => None
        end
      else None
  end.

(** derive_bitfield, starlit-macros/src/bitfield.rs 48-152; 145-152: the constant
    [(1 as T) << (offset - 1)] only compiles if the shift is in range *)
Definition derive_bitfield (B : N) (ds : list bf_decl) : option (list (option accessor)) :=
  match derive_loop ds 0 with
  | Some (acs, offset) =>
      if 0 <? offset then if offset - 1 <? B then Some acs else None else Some acs
  | None => None
  end.
