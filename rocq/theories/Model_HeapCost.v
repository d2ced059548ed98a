(** The heap operations with a counter for their work.

    The functions below repeat those of [Model_Heap] for /repo/starlit/src/heap.rs
    and count one unit for every comparison of two values (117, 180, 201, 210) and
    one for every exchange of two entries (34-41).  That the results are those of
    the functions without a counter is [counted_heap] in Prop_HeapCost.v. *)
From Coq Require Import NArith List Bool Arith.
From Verif Require Import Model_Base Model_Heap Model_Cost.
Import ListNotations.

(** A comparison of two values, heap.rs 117, 180, 201, 210 *)
Definition less_n (a b : N) : res (bool * nat) := units 1 (Ret (a <? b)%N).
(** swap! macro, heap.rs 34-41 *)
Definition heap_swap_n (h : heap) (pos_a pos_b : nat) : res (heap * nat) := units 1 (heap_swap h pos_a pos_b).

(** move_towards_root, heap.rs 176-186 *)
Fixpoint root_loop_n (fuel : nat) (h : heap) (value : N) (pos : nat) : res (heap * nat) :=
  match pos with
  | O => Ret (h, 0)
  | S _ =>
      match fuel with
      | O => OutOfFuel
      | S f =>
          let parent_pos := Nat.div (pos - 1) 2 in
          let+ pv := units 0 (value_at h parent_pos) in
          let+ c := less_n pv value in
          if c then
            let+ h' := heap_swap_n h pos parent_pos in
            root_loop_n f h' value parent_pos
          else Ret (h, 0)
      end
  end.

(** move_towards_root, heap.rs 176-186 *)
Definition move_towards_root_n (h : heap) (pos : nat) : res (heap * nat) :=
  let+ value := units 0 (value_at h pos) in
  root_loop_n pos h value pos.

(** move_towards_leaves, heap.rs 191-221 *)
Fixpoint leaves_loop_n (fuel : nat) (h : heap) (value : N) (pos : nat) : res (heap * nat) :=
  match fuel with
  | O => OutOfFuel
  | S f =>
      let left_child_pos := pos * 2 + 1 in
      let+ (smallest_pos, smallest_value) :=
        if Nat.ltb left_child_pos (length (h_heap h)) then
          let+ lv := units 0 (value_at h left_child_pos) in
          let+ c := less_n value lv in
          if c then Ret ((left_child_pos, lv), 0) else Ret ((pos, value), 0)
        else Ret ((pos, value), 0) in
      let right_child_pos := pos * 2 + 2 in
      let+ smallest_pos :=
        if Nat.ltb right_child_pos (length (h_heap h)) then
          let+ rv := units 0 (value_at h right_child_pos) in
          let+ c := less_n smallest_value rv in
          if c then Ret (right_child_pos, 0) else Ret (smallest_pos, 0)
        else Ret (smallest_pos, 0) in
      if Nat.eqb smallest_pos pos then Ret (h, 0)
      else
        let+ h' := heap_swap_n h pos smallest_pos in
        leaves_loop_n f h' value smallest_pos
  end.

(** move_towards_leaves, heap.rs 191-221 *)
Definition move_towards_leaves_n (h : heap) (pos : nat) : res (heap * nat) :=
  let+ value := units 0 (value_at h pos) in
  leaves_loop_n (S (length (h_heap h))) h value pos.

(** dequeue_usize, heap.rs 101-123 *)
Definition dequeue_n (h : heap) (index : nat) : res (heap * nat) :=
  let+ p := units 0 (vget (h_pos h) index) in
  match pos_in h p with
  | None => Ret (h, 0)
  | Some pos =>
      let other_pos := length (h_heap h) - 1 in
      if Nat.eqb other_pos pos then
        let+ h1 := units 0 (heap_clear_pos h index) in
        Ret (heap_pop_last h1, 0)
      else
        let+ h1 := heap_swap_n h other_pos pos in
        let+ h2 := units 0 (heap_clear_pos h1 index) in
        let h3 := heap_pop_last h2 in
        let+ moved := units 0 (value_at h3 pos) in
        let+ removed := units 0 (vget (h_values h3) index) in
        let+ c := less_n removed moved in
        if c then move_towards_leaves_n h3 pos
        else move_towards_root_n h3 pos
  end.

(** enqueue_usize, heap.rs 133-144 *)
Definition enqueue_n (h : heap) (index : nat) : res (heap * nat) :=
  let+ p := units 0 (vget (h_pos h) index) in
  match pos_in h p with
  | Some _ => Ret (h, 0)
  | None =>
      let pos := length (h_heap h) in
      let+ ps := units 0 (vset (h_pos h) index (Some pos)) in
      move_towards_root_n (mkHeap (h_values h) ps (h_heap h ++ [index])) pos
  end.

(** pop_max, heap.rs 147-173 *)
Definition pop_max_n (h : heap) : res ((option nat * heap) * nat) :=
  match h_heap h with
  | [] => Ret ((None, h), 0)
  | index :: _ =>
      let other_pos := length (h_heap h) - 1 in
      if Nat.eqb other_pos 0 then
        let+ h1 := units 0 (heap_clear_pos h index) in
        Ret ((Some index, heap_pop_last h1), 0)
      else
        let+ h1 := heap_swap_n h other_pos 0 in
        let+ h2 := units 0 (heap_clear_pos h1 index) in
        let+ h3 := move_towards_leaves_n (heap_pop_last h2) 0 in
        Ret ((Some index, h3), 0)
  end.

(** increase_usize, heap.rs 232-239 *)
Definition increase_n (h : heap) (index : nat) (f : N -> N) : res (heap * nat) :=
  let+ v := units 0 (vget (h_values h) index) in
  let+ vs := units 0 (vset (h_values h) index (f v)) in
  let h1 := mkHeap vs (h_pos h) (h_heap h) in
  let+ p := units 0 (vget (h_pos h1) index) in
  match pos_in h1 p with
  | Some pos => move_towards_root_n h1 pos
  | None => Ret (h1, 0)
  end.
