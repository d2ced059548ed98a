(** Model of the code generated by [#[derive(Bitfield)]]
    (/repo/starlit-macros/src/bitfield.rs 11-164) for a whole struct: any number of
    fields, each of any integer type and with any number of attributes, and
    accessors of any integer type.  (Model_Bitfield.v is about one attribute with
    unsigned types only, as the solver uses it.)

    Simplifications: the parser of the attribute and the names of the accessors are
    not modelled; what rustc rejects in the generated code counts as rejected by
    [derive_struct]. *)
From Coq Require Import ZArith List Bool.
From Verif Require Import Model_Base.
Import ListNotations.
Local Open Scope Z_scope.

(** Rust's integer types, among them the type of a field and the type of an
    accessor: starlit-macros/src/bitfield.rs 41, 268 *)
Record int_ty := mkInt { i_signed : bool; i_bits : Z }.
(** [z as T], starlit-macros/src/bitfield.rs 93, 111, 122, 124, 135: the number of the
    type that has the same lowest bits *)
Definition int_cast (t : int_ty) (z : Z) : Z :=
  if i_signed t then (z + 2 ^ (i_bits t - 1)) mod 2 ^ i_bits t - 2 ^ (i_bits t - 1)
  else z mod 2 ^ i_bits t.
(** [x << n] and [!x] on the type [t], starlit-macros/src/bitfield.rs 100, 123-124,
    134-135.  [x >> n] copies the sign bit for signed types, as [Z.shiftr] does. *)
Definition int_shl (t : int_ty) (x n : Z) : Z := int_cast t (Z.shiftl x n).
(** [!x] on the type [t], starlit-macros/src/bitfield.rs 123, 134 *)
Definition int_not (t : int_ty) (x : Z) : Z := int_cast t (Z.lnot x).

(** The type of an accessor's value (BitfieldAccess::ty,
    starlit-macros/src/bitfield.rs 263-269) *)
Inductive value_ty := VBool | VInt (t : int_ty).
(** A cast to the type of an accessor from an integer, starlit-macros/src/bitfield.rs
    111, 122; casts to [bool] do not compile *)
Definition value_cast (t : value_ty) (z : Z) : Z := match t with VBool => z | VInt t => int_cast t z end.

(** Bitfield, starlit-macros/src/bitfield.rs 185-190 *)
Record decl := mkDeclZ { de_width : Z; de_clamp : bool; de_access : option value_ty }.
(** What the generated getter and setter depend on. starlit-macros/src/bitfield.rs
    95-139 *)
Record int_accessor := mkAcc { ia_offset : Z; ia_width : Z; ia_clamp : bool; ia_ty : value_ty }.

(** mask_value, starlit-macros/src/bitfield.rs 92: [u128::MAX >> (128 - width)] *)
Definition int_mask (width : Z) : Z := Z.shiftr (2 ^ 128 - 1) (128 - width).

(** The getter, starlit-macros/src/bitfield.rs 95-115, for a field of type [t] with
    value [x] *)
Definition int_getter (t : int_ty) (a : int_accessor) (x : Z) : Z :=
  if ia_width a =? 1 then
    if Z.land x (int_shl t 1 (ia_offset a)) =? 0 then 0 else 1
  else value_cast (ia_ty a) (Z.land (Z.shiftr x (ia_offset a)) (int_cast t (int_mask (ia_width a)))).

(** The setter, starlit-macros/src/bitfield.rs 116-139.  [clamp] panics if its lower
    bound is above the upper one. *)
Definition int_setter (t : int_ty) (a : int_accessor) (x value : Z) : res Z :=
  let mask := int_cast t (int_mask (ia_width a)) in
  let keep := Z.land x (int_not t (int_shl t mask (ia_offset a))) in
  if ia_clamp a then
    let hi := value_cast (ia_ty a) (int_mask (ia_width a)) in
    guard 0 <=? hi else PAssert in
    let value := if value <? 0 then 0 else if hi <? value then hi else value in
    Ret (Z.lor keep (int_shl t (int_cast t value) (ia_offset a)))
  else
    Ret (Z.lor keep (int_shl t (Z.land (int_cast t value) mask) (ia_offset a))).

(** What rustc accepts: casts to [bool] and [clamp] of a [bool] do not compile.
    starlit-macros/src/bitfield.rs 95-139 *)
Definition decl_compiles (d : decl) : bool :=
  match de_access d with
  | Some VBool => (de_width d =? 1) && negb (de_clamp d)
  | _ => true
  end.
(** The loop over the declarations of one attribute, starlit-macros/src/bitfield.rs
    54-143 *)
Fixpoint derive_decls (ds : list decl) (offset : Z) : option (list (option int_accessor) * Z) :=
  match ds with
  | [] => Some ([], offset)
  | d :: r =>
      if (1 <=? de_width d) && (de_width d <? 128) && decl_compiles d then
        match derive_decls r (offset + de_width d) with
        | Some (acs, total) =>
            Some (option_map (mkAcc offset (de_width d) (de_clamp d)) (de_access d) :: acs, total)
        | None => None
        end
      else None
  end.
(** One attribute on a field of type [t], starlit-macros/src/bitfield.rs 48-152; 145-152:
    the constant [(1 as T) << (offset - 1)] only compiles if the shift is in range *)
Definition derive_attr (t : int_ty) (ds : list decl) : option (list (option int_accessor)) :=
  match derive_decls ds 0 with
  | Some (acs, offset) =>
      if 0 <? offset then if offset - 1 <? i_bits t then Some acs else None else Some acs
  | None => None
  end.
(** The iterator [for x in xs] with an early return, starlit-macros/src/bitfield.rs
    35, 43, 54 *)
Fixpoint all_some {A B} (f : A -> option B) (l : list A) : option (list B) :=
  match l with
  | [] => Some []
  | x :: r => match f x, all_some f r with Some y, Some ys => Some (y :: ys) | _, _ => None end
  end.
(** derive_bitfield, starlit-macros/src/bitfield.rs 11-164: the accessors of every
    declaration of every attribute of every field *)
Definition derive_struct (fields : list (int_ty * list (list decl)))
  : option (list (list (list (option int_accessor)))) :=
  all_some (fun f => all_some (derive_attr (fst f)) (snd f)) fields.

(** The generated methods on a struct, given the values of its fields: [n] is the
    field the accessor belongs to. starlit-macros/src/bitfield.rs 95-139 *)
Definition struct_get (t : int_ty) (n : nat) (a : int_accessor) (s : list Z) : res Z :=
  let* x := vget s n in Ret (int_getter t a x).
(** The generated setter on a struct, starlit-macros/src/bitfield.rs 116-139 *)
Definition struct_set (t : int_ty) (n : nat) (a : int_accessor) (s : list Z) (value : Z) : res (list Z) :=
  let* x := vget s n in let* x' := int_setter t a x value in vset s n x'.
