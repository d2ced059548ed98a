(** Model of /repo/starlit/src/search/vsids.rs and search/phases.rs.

    f32/f64 arithmetic is the standard library's executable IEEE-754
    specification ([Coq.Floats.SpecFloat], round to nearest even).  Activities
    are stored as bit patterns, as in the code. *)
From Coq Require Import NArith ZArith List Bool Arith Floats.SpecFloat.
From Verif Require Import Model_Base Model_Lit Model_PartialAssignment Model_Heap.
Import ListNotations.

(** IEEE binary32 parameters: 24 bits of precision, emax 128. Addition in
    search/vsids.rs 89. *)
Definition f32_add := SFadd 24 128.
(** Multiplication of [f32] values, search/vsids.rs 105, 130, 135 *)
Definition f32_mul := SFmul 24 128.
(** Division of [f32] values, search/vsids.rs 46-48 *)
Definition f32_div := SFdiv 24 128.

(** f32::from_bits: search/vsids.rs 87, 128 *)
Definition f32_from_bits (b : N) : spec_float :=
  let s := N.testbit b 31 in
  let e := N.land (N.shiftr b 23) 255 in
  let m := N.land b 8388607 in
  if (e =? 0)%N then
    match m with
    | N0 => S754_zero s
    | Npos p => S754_finite s p (-149)
    end
  else if (e =? 255)%N then
    (if (m =? 0)%N then S754_infinity s else S754_nan)
  else
    match (m + 8388608)%N with
    | N0 => S754_zero s
    | Npos p => S754_finite s p (Z.of_N e - 150)
    end.

(** f32::to_bits (a NaN's payload is not specified by Rust; the quiet NaN is used
    here): search/vsids.rs 95, 132 *)
Definition f32_to_bits (f : spec_float) : N :=
  match f with
  | S754_zero s => if s then 2147483648 else 0
  | S754_infinity s => (if s then 2147483648 else 0) + 2139095040
  | S754_nan => 2143289344
  | S754_finite s m e =>
      (if s then 2147483648 else 0) +
      (if (Npos m <? 8388608)%N then Npos m
       else N.shiftl (Z.to_N (e + 150)) 23 + (Npos m - 8388608))
  end%N.

(** Constants, search/vsids.rs 46-48. f32::MAX = 0x7f7fffff, 16.0 = 0x41800000, 1.0
    = 0x3f800000, 0.95f32 = 0x3f733333. *)
Definition F32_ONE := f32_from_bits 1065353216.
(** search/vsids.rs 46 *)
Definition RESCALE_LIMIT := f32_div (f32_from_bits 2139095039) (f32_from_bits 1098907648).
(** search/vsids.rs 47 *)
Definition RESCALE_FACTOR := f32_div F32_ONE RESCALE_LIMIT.
(** search/vsids.rs 48 *)
Definition INVERSE_DECAY := f32_div F32_ONE (f32_from_bits 1064514355).

(** Vsids, search/vsids.rs 51-67 *)
Record vsids := mkVsids { vs_activity : heap; vs_increment : spec_float }.
(** Vsids::default, search/vsids.rs 60-67 *)
Definition vsids_empty := mkVsids heap_empty F32_ONE.

(** unassign, search/vsids.rs 69-73 *)
Definition vsids_unassign (v : vsids) (l : lit) : res vsids :=
  let* h := enqueue (vs_activity v) (vidx l) in
  Ret (mkVsids h (vs_increment v)).

(** resize, search/vsids.rs 75-79 *)
Definition vsids_resize (v : vsids) (n : nat) : res vsids :=
  let* h := heap_resize_enqueued (vs_activity v) n 0%N in
  Ret (mkVsids h (vs_increment v)).

(** rescale, search/vsids.rs 126-136 *)
Definition rescale_bits (b : N) : N := f32_to_bits (f32_mul (f32_from_bits b) RESCALE_FACTOR).
(** rescale, search/vsids.rs 126-136 *)
Definition vsids_rescale (v : vsids) : vsids :=
  mkVsids (apply_monotone (vs_activity v) rescale_bits)
          (f32_mul (vs_increment v) RESCALE_FACTOR).

(** bump_var, search/vsids.rs 83-101 (for the variable of literal [l]) *)
Definition bump_bits (inc : spec_float) (b : N) : N :=
  f32_to_bits (f32_add (f32_from_bits b) inc).
(** bump_var, search/vsids.rs 83-101 *)
Definition bump_var (v : vsids) (l : lit) : res vsids :=
  let* old := vget (h_values (vs_activity v)) (vidx l) in
  let* h := increase (vs_activity v) (vidx l) (bump_bits (vs_increment v)) in
  let v1 := mkVsids h (vs_increment v) in
  let activity := f32_add (f32_from_bits old) (vs_increment v) in
  Ret (if SFltb RESCALE_LIMIT activity then vsids_rescale v1 else v1).

(** decay, search/vsids.rs 104-109 *)
Definition vsids_decay (v : vsids) : vsids :=
  let inc := f32_mul (vs_increment v) INVERSE_DECAY in
  let v1 := mkVsids (vs_activity v) inc in
  if SFltb RESCALE_LIMIT inc then vsids_rescale v1 else v1.

(** pop_decision_var, search/vsids.rs 112-121; every iteration pops, so the heap
    length bounds the number of iterations *)
Fixpoint pop_loop (fuel : nat) (h : heap) (vals : passign) : res (option nat * heap) :=
  match fuel with
  | O => OutOfFuel
  | S f =>
      let* (o, h1) := pop_max h in
      match o with
      | None => Ret (None, h1)
      | Some v =>
          let* a := pa_is_assigned vals (N.of_nat v) in
          if negb a then Ret (Some v, h1) else pop_loop f h1 vals
      end
  end.
(** pop_decision_var, search/vsids.rs 112-121 *)
Definition pop_decision_var (v : vsids) (vals : passign) : res (option nat * vsids) :=
  let* (o, h) := pop_loop (S (length (h_heap (vs_activity v)))) (vs_activity v) vals in
  Ret (o, mkVsids h (vs_increment v)).

(** ** Phases (phases.rs) *)

(** Phases, search/phases.rs 12-15: [saved] *)
Notation phases := (list bool) (only parsing).

(** resize, search/phases.rs 17-21 *)
Definition phases_resize (p : phases) (n : nat) : phases := vresize p n false.

(** unassign, search/phases.rs 23-30 *)
Definition phases_unassign (p : phases) (l : lit) : res phases :=
  vset p (vidx l) (lit_is_positive l).

(** decide_phase, search/phases.rs 36-38 *)
Definition decide_phase (p : phases) (v : nat) : res lit :=
  let* b := vget p v in Ret (lit_from_var (N.of_nat v) b).
