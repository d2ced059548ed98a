(** Histories of calls on the decision heuristic.

    [vhist shrink v]: some sequence of calls on a new [Vsids] leads to [v]; the
    number of variables is only reduced if [shrink] is [true]. *)
From Coq Require Import NArith ZArith List Bool Arith Floats.SpecFloat.
From Verif Require Import Model_Base Model_Lit Model_PartialAssignment Model_Heap Model_Vsids.
Import ListNotations.

Definition var_count (v : vsids) : nat := heap_len (vs_activity v).
(** The activity of variable [i], as a single-precision number. *)
Definition activity (v : vsids) (i : nat) : spec_float := f32_from_bits (nth i (h_values (vs_activity v)) 0%N).
(** The number the heap compares for variable [i]. *)
Definition heap_key (v : vsids) (i : nat) : N := nth i (h_values (vs_activity v)) 0%N.

Inductive vhist (shrink : bool) : vsids -> Prop :=
| vh_new : vhist shrink vsids_empty
| vh_resize v n v' : vhist shrink v -> (shrink = false -> var_count v <= n) ->
    vsids_resize v n = Ret v' -> vhist shrink v'
| vh_bump v l v' : vhist shrink v -> bump_var v l = Ret v' -> vhist shrink v'
| vh_decay v : vhist shrink v -> vhist shrink (vsids_decay v)
| vh_unassign v l v' : vhist shrink v -> vsids_unassign v l = Ret v' -> vhist shrink v'
| vh_pop v vals o v' : vhist shrink v -> pop_decision_var v vals = Ret (o, v') -> vhist shrink v'.

(** A finite single-precision number that is not negative. *)
Definition finite_nonneg (f : spec_float) : Prop :=
  valid_binary 24%Z 128%Z f = true /\
  match f with
  | S754_zero s | S754_finite s _ _ => s = false
  | _ => False
  end.
