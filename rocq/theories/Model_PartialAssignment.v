(** Model of /repo/starlit/src/partial_assignment.rs: one byte per variable. *)
From Coq Require Import NArith List Bool.
From Verif Require Import Model_Base Model_Lit.
Import ListNotations.
Local Open Scope N_scope.

(** [as u8]: partial_assignment.rs 38, 56, 78 *)
Definition to_u8 (n : N) : N := n mod 256.

(** PartialAssignment, partial_assignment.rs 11-24: [assigned : VecMap<Var, u8>] *)
Notation passign := (list N) (only parsing).

(** Byte stored for an unassigned variable, partial_assignment.rs 38, 56, 78:
    [(index * 2) as u8 ^ 2] ([as] binds tighter than [^]). *)
Definition unassigned_byte (index : N) : N := N.lxor (to_u8 (index * 2)) 2.

(** assign, partial_assignment.rs 31-33 *)
Definition pa_assign (p : passign) (l : lit) : res passign :=
  vset p (vidx l) (to_u8 l).

(** unassign, partial_assignment.rs 37-39 (takes a [Var]) *)
Definition pa_unassign (p : passign) (v : var) : res passign :=
  vset p (N.to_nat v) (unassigned_byte v).

(** is_true, partial_assignment.rs 43-45 *)
Definition pa_is_true (p : passign) (l : lit) : res bool :=
  let* b := vget p (vidx l) in Ret (b =? to_u8 l).

(** is_false, partial_assignment.rs 49-51 *)
Definition pa_is_false (p : passign) (l : lit) : res bool :=
  let* b := vget p (vidx l) in Ret (b =? N.lxor (to_u8 l) 1).

(** is_assigned, partial_assignment.rs 55-57 *)
Definition pa_is_assigned (p : passign) (v : var) : res bool :=
  let* b := vget p (N.to_nat v) in Ret (negb (b =? unassigned_byte v)).

(** value, partial_assignment.rs 65-71 *)
Definition pa_value (p : passign) (l : lit) : res (option bool) :=
  let* b := vget p (vidx l) in
  Ret (match N.lxor b (to_u8 l) with
       | 0 => Some true
       | 1 => Some false
       | _ => None
       end).

(** resize, partial_assignment.rs 75-81: the [while] loop pushes one byte per
    missing index. *)
Definition pa_resize (p : passign) (var_count : nat) : passign :=
  firstn var_count
    (p ++ map (fun i => unassigned_byte (N.of_nat i)) (seq (length p) (var_count - length p))).
