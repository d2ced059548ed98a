(** Model of [#[derive(Transparent)]] (/repo/starlit-macros/src/transparent.rs) and of
    the conversions it provides (/repo/starlit/src/util/transparent.rs).

    A type is its size and alignment, a value its bytes, a reference an address and a
    slice an address and a length.  Simplifications: types are monomorphic; lifetimes
    and bit patterns that are invalid for a type are not modelled.  The rules of rustc
    for the layout of structs and for [transmute] are those of the Rust reference. *)
From Coq Require Import NArith List Bool.
Import ListNotations.
Local Open Scope N_scope.

(** A sized type, for example [u32] (lit.rs 11) *)
Record rty := mkTy { ty_size : N; ty_align : N }.
(** The type [()], starlit-macros/src/transparent.rs 49 *)
Definition ty_unit : rty := mkTy 0 1.
(** The type [[T; LEN]], util/transparent.rs 29-33 *)
Definition ty_array (t : rty) (n : N) : rty := mkTy (n * ty_size t) (ty_align t).

(** ** rustc *)
(** The arguments of [repr], starlit-macros/src/transparent.rs 85-103; [ROther] is any
    other one *)
Inductive repr_arg := RTransparent | RC | ROther.
(** An attribute of an item, starlit-macros/src/transparent.rs 30-34: [repr] with its
    arguments or another one *)
Inductive attr := ARepr (args : list repr_arg) | AOther.
(** The item below [derive], starlit-macros/src/transparent.rs 11-26: the attributes,
    and for a struct the types of its fields *)
Inductive data := DEnum | DUnion | DStruct (fields : list rty).
(** DeriveInput, starlit-macros/src/transparent.rs 8 *)
Record item := mkItem { it_attrs : list attr; it_data : data }.

(** The next multiple of the alignment [a] (layout of structs in Rust; used through
    [transmute] in starlit-macros/src/transparent.rs 72, 77) *)
Definition round_up (a x : N) : N := (x + a - 1) / a * a.
(** The offsets of the fields of a [repr(C)] struct from [off] on, the end and the
    alignment (layout of structs in Rust; used through [transmute] in
    starlit-macros/src/transparent.rs 72, 77) *)
Fixpoint c_layout (fs : list rty) (off al : N) : list N * N * N :=
  match fs with
  | [] => ([], off, al)
  | f :: fs =>
      let o := round_up (ty_align f) off in
      let '(os, e, a) := c_layout fs (o + ty_size f) (N.max al (ty_align f)) in (o :: os, e, a)
  end.
(** No bytes and no alignment (layout of structs in Rust; used through [transmute] in
    starlit-macros/src/transparent.rs 72, 77) *)
Definition trivial (t : rty) : bool := (ty_size t =? 0) && (ty_align t =? 1).
(** The offsets of the fields and the type of a struct, [None] if rustc rejects it
    (layout of structs in Rust; used through [transmute] in
    starlit-macros/src/transparent.rs 72, 77). [transparent] must be the only
    argument and at most one field may be nontrivial. *)
Definition struct_layout (hints : list repr_arg) (fs : list rty) : option (list N * rty) :=
  match hints with
  | [RTransparent] =>
      match filter (fun f => negb (trivial f)) fs with
      | [] => Some (map (fun _ => 0) fs, ty_unit)
      | [f] => Some (map (fun _ => 0) fs, f)
      | _ => None
      end
  | _ =>
      if negb (match hints with [] => true | _ => false end) && forallb (fun h => match h with RC => true | _ => false end) hints then
        let '(os, e, a) := c_layout fs 0 1 in Some (os, mkTy (round_up a e) a)
      else None
  end.
(** All arguments of all [repr] attributes (rustc's view of
    starlit-macros/src/transparent.rs 30-34) *)
Definition hints_of (attrs : list attr) : list repr_arg :=
  flat_map (fun a => match a with ARepr args => args | AOther => [] end) attrs.

(** ** The macro *)
(** check_repr_args, starlit-macros/src/transparent.rs 85-103; [None] is an error *)
Fixpoint check_repr_args (args : list repr_arg) (is_transparent : bool) : option bool :=
  match args with
  | [] => Some is_transparent
  | RTransparent :: args | RC :: args => check_repr_args args true
  | ROther :: _ => None
  end.
(** The loop over the attributes, starlit-macros/src/transparent.rs 28-34 *)
Fixpoint check_attrs (attrs : list attr) (is_transparent : bool) : option bool :=
  match attrs with
  | [] => Some is_transparent
  | AOther :: attrs => check_attrs attrs is_transparent
  | ARepr args :: attrs =>
      match check_repr_args args false with
      | None => None
      | Some b => check_attrs attrs (is_transparent || b)
      end
  end.
(** derive_transparent, starlit-macros/src/transparent.rs 7-83: the storage type, or
    [None] for an error *)
Definition derive_transparent (it : item) : option rty :=
  match it_data it with
  | DEnum | DUnion => None
  | DStruct fields =>
      match check_attrs (it_attrs it) false with
      | Some true => Some (match fields with f :: _ => f | [] => ty_unit end)
      | _ => None
      end
  end.

(** A struct whose [derive] compiles: the offsets of its fields, its type and its
    storage type. The generated [transmute]s (starlit-macros/src/transparent.rs 72, 77)
    compile only between types of the same size. *)
Definition transparent (it : item) : option (list N * rty * rty) :=
  match it_data it, derive_transparent it with
  | DStruct fs, Some st =>
      match struct_layout (hints_of (it_attrs it)) fs with
      | Some (os, t) => if ty_size t =? ty_size st then Some (os, t, st) else None
      | None => None
      end
  | _, _ => None
  end.

(** ** The conversions *)
(** The bytes of the part of type [t] at an offset (read through
    util/transparent.rs 37-42; access to a field) *)
Definition part (t : rty) (off : N) (bytes : list N) : list N :=
  firstn (N.to_nat (ty_size t)) (skipn (N.to_nat off) bytes).

(** into_storage of a struct, starlit-macros/src/transparent.rs 70-73: [transmute] *)
Definition into_storage (bytes : list N) : list N := bytes.
(** from_storage_unchecked of a struct, starlit-macros/src/transparent.rs 75-78 *)
Definition from_storage (bytes : list N) : list N := bytes.

(** into_storage of an array, util/transparent.rs 35-43: the bytes are read again as an
    array of [n] elements of the storage type [st] *)
Definition array_into_storage (st : rty) (n : N) (bytes : list N) : list N := part (ty_array st n) 0 bytes.
(** from_storage_unchecked of an array, util/transparent.rs 45-48 *)
Definition array_from_storage (t : rty) (n : N) (bytes : list N) : list N := part (ty_array t n) 0 bytes.

(** A reference or slice: address and number of elements. util/transparent.rs 73-130 *)
Record slice := mkSlice { sl_addr : N; sl_len : N }.
(** The value of element [i] in memory [m] (indexing a slice, for example
    clause_arena.rs 203-212) *)
Definition elem (m : N -> N) (t : rty) (s : slice) (i : N) : list N :=
  map (fun k => m (sl_addr s + i * ty_size t + N.of_nat k)) (seq 0 (N.to_nat (ty_size t))).
(** into_storage of references and slices, util/transparent.rs 76-80, 91-95, and
    into_storage_mut, 106-109, 120-123: pointer casts, which keep address and length *)
Definition ref_into_storage (s : slice) : slice := mkSlice (sl_addr s) (sl_len s).
(** from_storage_unchecked of references and slices, util/transparent.rs 82-85, 97-100,
    and from_storage_unchecked_mut, 111-114, 125-128 *)
Definition ref_from_storage (s : slice) : slice := mkSlice (sl_addr s) (sl_len s).

(** ** The types of this code base *)
(** LitIdx, lit.rs 11 *)
Definition ty_u32 : rty := mkTy 4 4.
(** A struct with one [repr] argument and one field, for example lit.rs 39-43 *)
Definition newtype (r : repr_arg) (t : rty) : item := mkItem [ARepr [r]] (DStruct [t]).
(** Var, lit.rs 39-43; Lit, lit.rs 201-205; HeaderWord, clause_arena.rs 23-27 *)
Definition it_word : item := newtype RTransparent ty_u32.
(** EmptyClauseHeader, clause_arena.rs 79-81 *)
Definition it_empty_header : item := newtype RC (ty_array ty_u32 0).
(** LongHeader, prop/long.rs 17-21 *)
Definition it_long_header : item := newtype RTransparent (ty_array ty_u32 2).
(** The address of the header of the clause whose header starts at word [w] of a buffer
    at address [base], clause_arena.rs 261-267 *)
Definition header_addr (base w : N) : N := base + w * ty_size ty_u32.
