(** Model of /repo/starlit/src/heap.rs for any type of values.

    [Model_Heap] fixes the values to natural numbers with their usual order.  Here
    the values have any type [V], and the functions [vlt] and [vgt] that the
    implementations of [PartialOrd] and [Ord] provide for the comparisons [<] and
    [>] are any two functions: nothing says that they are consistent with each other
    or with themselves.  They are pure and do not panic.  The definitions repeat
    those of [Model_Heap] with these comparisons; [heap_instance] in Prop_HeapAny.v
    says that they agree for natural numbers. *)
From Coq Require Import NArith List Bool Arith.
From Verif Require Import Model_Base Model_Heap.
Import ListNotations.

Section Values.
Context {V : Type} (vlt vgt : V -> V -> bool).

(** MaxHeap, heap.rs 16-21 *)
Record g_heap := g_mkHeap { g_h_values : list V; g_h_pos : list (option nat); g_h_heap : list nat }.

(** Default, heap.rs 23-32 *)
Definition g_heap_empty : g_heap := g_mkHeap [] [] [].

(** len, heap.rs 84-86 *)
Definition g_heap_len (h : g_heap) : nat := length (g_h_values h).

(** [heap_pos[index] < heap.len()] as used in heap.rs 90, 103, 135, 236 *)
Definition g_pos_in (h : g_heap) (p : option nat) : option nat :=
  match p with
  | Some p => if Nat.ltb p (length (g_h_heap h)) then Some p else None
  | None => None
  end.

(** is_enqueued, heap.rs 89-91 *)
Definition g_is_enqueued (h : g_heap) (index : nat) : res bool :=
  let* p := vget (g_h_pos h) index in
  Ret (match g_pos_in h p with Some _ => true | None => false end).

(** swap! macro, heap.rs 34-41 (the final exchange of the two position variables is
    expressed by the callers) *)
Definition g_heap_swap (h : g_heap) (pos_a pos_b : nat) : res g_heap :=
  let* hp := vswap (g_h_heap h) pos_a pos_b in
  let* ia := vget hp pos_a in
  let* ib := vget hp pos_b in
  let* ps := vswap (g_h_pos h) ia ib in
  Ret (g_mkHeap (g_h_values h) ps hp).

(** values[heap[pos]]: heap.rs 117, 177, 180, 192, 201, 210 *)
Definition g_value_at (h : g_heap) (pos : nat) : res V :=
  let* i := vget (g_h_heap h) pos in vget (g_h_values h) i.

(** move_towards_root, heap.rs 176-186; [fuel] = an upper bound on [pos]. *)
Fixpoint g_root_loop (fuel : nat) (h : g_heap) (value : V) (pos : nat) : res g_heap :=
  match pos with
  | O => Ret h
  | S _ =>
      match fuel with
      | O => OutOfFuel
      | S f =>
          let parent_pos := Nat.div (pos - 1) 2 in
          let* pv := g_value_at h parent_pos in
          if vlt pv value then
            let* h' := g_heap_swap h pos parent_pos in
            g_root_loop f h' value parent_pos
          else Ret h
      end
  end.

(** move_towards_root, heap.rs 176-186 *)
Definition g_move_towards_root (h : g_heap) (pos : nat) : res g_heap :=
  let* value := g_value_at h pos in
  g_root_loop pos h value pos.

(** move_towards_leaves, heap.rs 191-221; [fuel] = heap length suffices. *)
Fixpoint g_leaves_loop (fuel : nat) (h : g_heap) (value : V) (pos : nat) : res g_heap :=
  match fuel with
  | O => OutOfFuel
  | S f =>
      let left_child_pos := pos * 2 + 1 in
      let* (smallest_pos, smallest_value) :=
        if Nat.ltb left_child_pos (length (g_h_heap h)) then
          let* lv := g_value_at h left_child_pos in
          if vlt value lv then Ret (left_child_pos, lv) else Ret (pos, value)
        else Ret (pos, value) in
      let right_child_pos := pos * 2 + 2 in
      let* smallest_pos :=
        if Nat.ltb right_child_pos (length (g_h_heap h)) then
          let* rv := g_value_at h right_child_pos in
          if vlt smallest_value rv then Ret right_child_pos else Ret smallest_pos
        else Ret smallest_pos in
      if Nat.eqb smallest_pos pos then Ret h
      else
        let* h' := g_heap_swap h pos smallest_pos in
        g_leaves_loop f h' value smallest_pos
  end.

(** move_towards_leaves, heap.rs 191-221 *)
Definition g_move_towards_leaves (h : g_heap) (pos : nat) : res g_heap :=
  let* value := g_value_at h pos in
  g_leaves_loop (S (length (g_h_heap h))) h value pos.

(** [heap.pop()] with the result dropped: heap.rs 111, 115, 162, 167 *)
Definition g_heap_pop_last (h : g_heap) : g_heap :=
  g_mkHeap (g_h_values h) (g_h_pos h) (removelast (g_h_heap h)).

(** [heap_pos[index] = !0]: heap.rs 110, 114, 161, 166 *)
Definition g_heap_clear_pos (h : g_heap) (index : nat) : res g_heap :=
  let* ps := vset (g_h_pos h) index None in
  Ret (g_mkHeap (g_h_values h) ps (g_h_heap h)).

(** dequeue_usize, heap.rs 101-123. After [swap!] the variables [pos] and
    [other_pos] are exchanged, so line 117 looks at the original [pos]. *)
Definition g_dequeue (h : g_heap) (index : nat) : res g_heap :=
  let* p := vget (g_h_pos h) index in
  match g_pos_in h p with
  | None => Ret h
  | Some pos =>
      let other_pos := length (g_h_heap h) - 1 in
      if Nat.eqb other_pos pos then
        let* h1 := g_heap_clear_pos h index in
        Ret (g_heap_pop_last h1)
      else
        let* h1 := g_heap_swap h other_pos pos in
        let* h2 := g_heap_clear_pos h1 index in
        let h3 := g_heap_pop_last h2 in
        let* moved := g_value_at h3 pos in
        let* removed := vget (g_h_values h3) index in
        if vgt moved removed then g_move_towards_leaves h3 pos
        else g_move_towards_root h3 pos
  end.

(** enqueue_usize, heap.rs 133-144 *)
Definition g_enqueue (h : g_heap) (index : nat) : res g_heap :=
  let* p := vget (g_h_pos h) index in
  match g_pos_in h p with
  | Some _ => Ret h
  | None =>
      let pos := length (g_h_heap h) in
      let* ps := vset (g_h_pos h) index (Some pos) in
      g_move_towards_root (g_mkHeap (g_h_values h) ps (g_h_heap h ++ [index])) pos
  end.

(** pop_max, heap.rs 147-173, up to the conversion of the index to a key (line 172;
    [Var::from_index] panics beyond [MAX_INDEX]) *)
Definition g_pop_max (h : g_heap) : res (option nat * g_heap) :=
  match g_h_heap h with
  | [] => Ret (None, h)
  | index :: _ =>
      let other_pos := length (g_h_heap h) - 1 in
      if Nat.eqb other_pos 0 then
        let* h1 := g_heap_clear_pos h index in
        Ret (Some index, g_heap_pop_last h1)
      else
        let* h1 := g_heap_swap h other_pos 0 in
        let* h2 := g_heap_clear_pos h1 index in
        let* h3 := g_move_towards_leaves (g_heap_pop_last h2) 0 in
        Ret (Some index, h3)
  end.

(** resize, heap.rs 51-65 *)
Definition g_heap_resize (h : g_heap) (len : nat) (value : V) : res g_heap :=
  guard (N.of_nat len <=? 4294967296)%N else PAssert in
  let* h1 :=
    if Nat.ltb len (length (g_h_values h))
    then foldM g_dequeue (seq len (length (g_h_values h) - len)) h
    else Ret h in
  Ret (g_mkHeap (vresize (g_h_values h1) len value) (vresize (g_h_pos h1) len None) (g_h_heap h1)).

(** resize_enqueued, heap.rs 71-80 *)
Definition g_heap_resize_enqueued (h : g_heap) (len : nat) (value : V) : res g_heap :=
  let old_len := g_heap_len h in
  let* h1 := g_heap_resize h len value in
  foldM g_enqueue (seq old_len (len - old_len)) h1.

(** increase_usize, heap.rs 232-239 *)
Definition g_increase (h : g_heap) (index : nat) (f : V -> V) : res g_heap :=
  let* v := vget (g_h_values h) index in
  let* vs := vset (g_h_values h) index (f v) in
  let h1 := g_mkHeap vs (g_h_pos h) (g_h_heap h) in
  let* p := vget (g_h_pos h1) index in
  match g_pos_in h1 p with
  | Some pos => g_move_towards_root h1 pos
  | None => Ret h1
  end.

(** apply_monotone, heap.rs 245-249 *)
Definition g_apply_monotone (h : g_heap) (f : V -> V) : g_heap :=
  g_mkHeap (map f (g_h_values h)) (g_h_pos h) (g_h_heap h).

(** Index, heap.rs 252-261 *)
Definition g_heap_value (h : g_heap) (index : nat) : res V := vget (g_h_values h) index.

End Values.
