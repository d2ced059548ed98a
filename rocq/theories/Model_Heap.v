(** Model of /repo/starlit/src/heap.rs (addressable binary max heap).

    Values are [N] (the solver uses [u32]; any integer type with its usual order
    is covered).  Indices and heap positions are [nat]; the sentinel [!0] of
    [heap_pos] is [None].  [!0] is a position in the heap only if the heap holds
    [LitIdx::MAX + 1] entries, the largest number allowed (line 55); then every
    index is enqueued and none has the sentinel. *)
From Coq Require Import NArith List Bool Arith.
From Verif Require Import Model_Base.
Import ListNotations.

(** MaxHeap, heap.rs 16-21 *)
Record heap := mkHeap { h_values : list N; h_pos : list (option nat); h_heap : list nat }.

(** Default, heap.rs 23-32 *)
Definition heap_empty : heap := mkHeap [] [] [].

(** len, heap.rs 84-86 *)
Definition heap_len (h : heap) : nat := length (h_values h).

(** [heap_pos[index] < heap.len()] as used in heap.rs 90, 103, 135, 236 *)
Definition pos_in (h : heap) (p : option nat) : option nat :=
  match p with
  | Some p => if Nat.ltb p (length (h_heap h)) then Some p else None
  | None => None
  end.

(** is_enqueued, heap.rs 89-91 *)
Definition is_enqueued (h : heap) (index : nat) : res bool :=
  let* p := vget (h_pos h) index in
  Ret (match pos_in h p with Some _ => true | None => false end).

(** [slice.swap(a, b)]: heap.rs 36-38 *)
Definition vswap {A} (v : list A) (a b : nat) : res (list A) :=
  let* x := vget v a in
  let* y := vget v b in
  let* v1 := vset v a y in
  vset v1 b x.

(** swap! macro, heap.rs 34-41 (the final exchange of the two position variables is
    expressed by the callers) *)
Definition heap_swap (h : heap) (pos_a pos_b : nat) : res heap :=
  let* hp := vswap (h_heap h) pos_a pos_b in
  let* ia := vget hp pos_a in
  let* ib := vget hp pos_b in
  let* ps := vswap (h_pos h) ia ib in
  Ret (mkHeap (h_values h) ps hp).

(** values[heap[pos]]: heap.rs 117, 177, 180, 192, 201, 210 *)
Definition value_at (h : heap) (pos : nat) : res N :=
  let* i := vget (h_heap h) pos in vget (h_values h) i.

(** move_towards_root, heap.rs 176-186; [fuel] = an upper bound on [pos]. *)
Fixpoint root_loop (fuel : nat) (h : heap) (value : N) (pos : nat) : res heap :=
  match pos with
  | O => Ret h
  | S _ =>
      match fuel with
      | O => OutOfFuel
      | S f =>
          let parent_pos := Nat.div (pos - 1) 2 in
          let* pv := value_at h parent_pos in
          if (pv <? value)%N then
            let* h' := heap_swap h pos parent_pos in
            root_loop f h' value parent_pos
          else Ret h
      end
  end.

(** move_towards_root, heap.rs 176-186 *)
Definition move_towards_root (h : heap) (pos : nat) : res heap :=
  let* value := value_at h pos in
  root_loop pos h value pos.

(** move_towards_leaves, heap.rs 191-221; [fuel] = heap length suffices. *)
Fixpoint leaves_loop (fuel : nat) (h : heap) (value : N) (pos : nat) : res heap :=
  match fuel with
  | O => OutOfFuel
  | S f =>
      let left_child_pos := pos * 2 + 1 in
      let* (smallest_pos, smallest_value) :=
        if Nat.ltb left_child_pos (length (h_heap h)) then
          let* lv := value_at h left_child_pos in
          if (value <? lv)%N then Ret (left_child_pos, lv) else Ret (pos, value)
        else Ret (pos, value) in
      let right_child_pos := pos * 2 + 2 in
      let* smallest_pos :=
        if Nat.ltb right_child_pos (length (h_heap h)) then
          let* rv := value_at h right_child_pos in
          if (smallest_value <? rv)%N then Ret right_child_pos else Ret smallest_pos
        else Ret smallest_pos in
      if Nat.eqb smallest_pos pos then Ret h
      else
        let* h' := heap_swap h pos smallest_pos in
        leaves_loop f h' value smallest_pos
  end.

(** move_towards_leaves, heap.rs 191-221 *)
Definition move_towards_leaves (h : heap) (pos : nat) : res heap :=
  let* value := value_at h pos in
  leaves_loop (S (length (h_heap h))) h value pos.

(** [heap.pop()] with the result dropped: heap.rs 111, 115, 162, 167 *)
Definition heap_pop_last (h : heap) : heap :=
  mkHeap (h_values h) (h_pos h) (removelast (h_heap h)).

(** [heap_pos[index] = !0]: heap.rs 110, 114, 161, 166 *)
Definition heap_clear_pos (h : heap) (index : nat) : res heap :=
  let* ps := vset (h_pos h) index None in
  Ret (mkHeap (h_values h) ps (h_heap h)).

(** dequeue_usize, heap.rs 101-123. After [swap!] the variables [pos] and
    [other_pos] are exchanged, so line 117 looks at the original [pos]. *)
Definition dequeue (h : heap) (index : nat) : res heap :=
  let* p := vget (h_pos h) index in
  match pos_in h p with
  | None => Ret h
  | Some pos =>
      let other_pos := length (h_heap h) - 1 in
      if Nat.eqb other_pos pos then
        let* h1 := heap_clear_pos h index in
        Ret (heap_pop_last h1)
      else
        let* h1 := heap_swap h other_pos pos in
        let* h2 := heap_clear_pos h1 index in
        let h3 := heap_pop_last h2 in
        let* moved := value_at h3 pos in
        let* removed := vget (h_values h3) index in
        if (removed <? moved)%N then move_towards_leaves h3 pos
        else move_towards_root h3 pos
  end.

(** enqueue_usize, heap.rs 133-144 *)
Definition enqueue (h : heap) (index : nat) : res heap :=
  let* p := vget (h_pos h) index in
  match pos_in h p with
  | Some _ => Ret h
  | None =>
      let pos := length (h_heap h) in
      let* ps := vset (h_pos h) index (Some pos) in
      move_towards_root (mkHeap (h_values h) ps (h_heap h ++ [index])) pos
  end.

(** pop_max, heap.rs 147-173, up to the conversion of the index to a key (line 172;
    [Var::from_index] panics beyond [MAX_INDEX]) *)
Definition pop_max (h : heap) : res (option nat * heap) :=
  match h_heap h with
  | [] => Ret (None, h)
  | index :: _ =>
      let other_pos := length (h_heap h) - 1 in
      if Nat.eqb other_pos 0 then
        let* h1 := heap_clear_pos h index in
        Ret (Some index, heap_pop_last h1)
      else
        let* h1 := heap_swap h other_pos 0 in
        let* h2 := heap_clear_pos h1 index in
        let* h3 := move_towards_leaves (heap_pop_last h2) 0 in
        Ret (Some index, h3)
  end.

(** resize, heap.rs 51-65 *)
Definition heap_resize (h : heap) (len : nat) (value : N) : res heap :=
  guard (N.of_nat len <=? 4294967296)%N else PAssert in
  let* h1 :=
    if Nat.ltb len (length (h_values h))
    then foldM dequeue (seq len (length (h_values h) - len)) h
    else Ret h in
  Ret (mkHeap (vresize (h_values h1) len value) (vresize (h_pos h1) len None) (h_heap h1)).

(** resize_enqueued, heap.rs 71-80 *)
Definition heap_resize_enqueued (h : heap) (len : nat) (value : N) : res heap :=
  let old_len := heap_len h in
  let* h1 := heap_resize h len value in
  foldM enqueue (seq old_len (len - old_len)) h1.

(** increase_usize, heap.rs 232-239 *)
Definition increase (h : heap) (index : nat) (f : N -> N) : res heap :=
  let* v := vget (h_values h) index in
  let* vs := vset (h_values h) index (f v) in
  let h1 := mkHeap vs (h_pos h) (h_heap h) in
  let* p := vget (h_pos h1) index in
  match pos_in h1 p with
  | Some pos => move_towards_root h1 pos
  | None => Ret h1
  end.

(** apply_monotone, heap.rs 245-249 *)
Definition apply_monotone (h : heap) (f : N -> N) : heap :=
  mkHeap (map f (h_values h)) (h_pos h) (h_heap h).

(** Index, heap.rs 252-261 *)
Definition heap_value (h : heap) (index : nat) : res N := vget (h_values h) index.
