(** Model of /repo/starlit/src/heap.rs for comparisons and functions that may panic.

    In [Model_HeapAny] comparisons are pure functions.  Here they are code: they may
    panic, have side effects and even change values (which may have interior
    mutability).  The values are therefore part of the state of the world [W], which
    all code passed in may change; of the vector of values the heap itself only knows
    the length, so it is a vector of units.  A comparison of the values of two indices
    returns the new state of the world and its answer, or [None] if it panics.

    A call of the heap ends with [(true, h, w)] if it returns and with [(false, h, w)]
    if a panic of the code passed in unwinds through it; [h] is the heap it leaves
    behind, which a caller can see after [catch_unwind] or in a destructor.  ([Panic]
    is a panic of the heap's own code.)  Cloning values panics only in
    [p_resize_clone], dropping them only in [p_resize_drop]. *)
From Coq Require Import NArith List Bool Arith.
From Verif Require Import Model_Base Model_HeapAny.
Import ListNotations.

(** MaxHeap, heap.rs 16-21, without the values *)
Notation shape := (@g_heap unit).

Section World.
Context {W : Type} (vlt vgt : W -> nat -> nat -> W * option bool).

(** The index behind [&self.values[self.heap[pos] as usize]]: heap.rs 117, 177, 180,
    192, 201, 204, 210 *)
Definition p_index_at (h : shape) (pos : nat) : res nat :=
  let* i := vget (g_h_heap h) pos in
  let* _ := vget (g_h_values h) i in
  Ret i.

(** move_towards_root, heap.rs 176-186; [fuel] = an upper bound on [pos]; [value] is
    the index whose value the reference of line 177 points to. *)
Fixpoint p_root_loop (fuel : nat) (h : shape) (w : W) (value pos : nat) : res (bool * shape * W) :=
  match pos with
  | O => Ret (true, h, w)
  | S _ =>
      match fuel with
      | O => OutOfFuel
      | S f =>
          let parent_pos := Nat.div (pos - 1) 2 in
          let* parent := p_index_at h parent_pos in
          match vlt w parent value with
          | (w1, None) => Ret (false, h, w1)
          | (w1, Some true) =>
              let* h' := g_heap_swap h pos parent_pos in
              p_root_loop f h' w1 value parent_pos
          | (w1, Some false) => Ret (true, h, w1)
          end
      end
  end.

(** move_towards_root, heap.rs 176-186 *)
Definition p_move_towards_root (h : shape) (w : W) (pos : nat) : res (bool * shape * W) :=
  let* value := p_index_at h pos in
  p_root_loop pos h w value pos.

(** One of the two comparisons with a child in heap.rs 200-205 and 209-213: the new
    [smallest_pos] and the index behind [smallest_value], [None] for a panic *)
Definition p_pick (h : shape) (w : W) (child smallest_pos smallest_value : nat) : res (option (nat * nat) * W) :=
  if Nat.ltb child (length (g_h_heap h)) then
    let* c := p_index_at h child in
    match vlt w smallest_value c with
    | (w1, None) => Ret (None, w1)
    | (w1, Some true) => Ret (Some (child, c), w1)
    | (w1, Some false) => Ret (Some (smallest_pos, smallest_value), w1)
    end
  else Ret (Some (smallest_pos, smallest_value), w).

(** move_towards_leaves, heap.rs 191-221; [fuel] = heap length suffices. *)
Fixpoint p_leaves_loop (fuel : nat) (h : shape) (w : W) (value pos : nat) : res (bool * shape * W) :=
  match fuel with
  | O => OutOfFuel
  | S f =>
      let* (o1, w1) := p_pick h w (pos * 2 + 1) pos value in
      match o1 with
      | None => Ret (false, h, w1)
      | Some (sp1, sv1) =>
          let* (o2, w2) := p_pick h w1 (pos * 2 + 2) sp1 sv1 in
          match o2 with
          | None => Ret (false, h, w2)
          | Some (sp2, _) =>
              if Nat.eqb sp2 pos then Ret (true, h, w2)
              else
                let* h' := g_heap_swap h pos sp2 in
                p_leaves_loop f h' w2 value sp2
          end
      end
  end.

(** move_towards_leaves, heap.rs 191-221 *)
Definition p_move_towards_leaves (h : shape) (w : W) (pos : nat) : res (bool * shape * W) :=
  let* value := p_index_at h pos in
  p_leaves_loop (S (length (g_h_heap h))) h w value pos.

(** dequeue_usize, heap.rs 101-123 *)
Definition p_dequeue (h : shape) (w : W) (index : nat) : res (bool * shape * W) :=
  let* p := vget (g_h_pos h) index in
  match g_pos_in h p with
  | None => Ret (true, h, w)
  | Some pos =>
      let other_pos := length (g_h_heap h) - 1 in
      if Nat.eqb other_pos pos then
        let* h1 := g_heap_clear_pos h index in
        Ret (true, g_heap_pop_last h1, w)
      else
        let* h1 := g_heap_swap h other_pos pos in
        let* h2 := g_heap_clear_pos h1 index in
        let h3 := g_heap_pop_last h2 in
        let* moved := p_index_at h3 pos in
        let* _ := vget (g_h_values h3) index in
        match vgt w moved index with
        | (w1, None) => Ret (false, h3, w1)
        | (w1, Some true) => p_move_towards_leaves h3 w1 pos
        | (w1, Some false) => p_move_towards_root h3 w1 pos
        end
  end.

(** enqueue_usize, heap.rs 133-144 *)
Definition p_enqueue (h : shape) (w : W) (index : nat) : res (bool * shape * W) :=
  let* p := vget (g_h_pos h) index in
  match g_pos_in h p with
  | Some _ => Ret (true, h, w)
  | None =>
      let pos := length (g_h_heap h) in
      let* ps := vset (g_h_pos h) index (Some pos) in
      p_move_towards_root (g_mkHeap (g_h_values h) ps (g_h_heap h ++ [index])) w pos
  end.

(** pop_max, heap.rs 147-173, up to the conversion of the index to a key.  The result
    is [None] if a panic unwinds, otherwise [Some] of what [pop_max] returns. *)
Definition p_pop_max (h : shape) (w : W) : res (option (option nat) * shape * W) :=
  match g_h_heap h with
  | [] => Ret (Some None, h, w)
  | index :: _ =>
      let other_pos := length (g_h_heap h) - 1 in
      if Nat.eqb other_pos 0 then
        let* h1 := g_heap_clear_pos h index in
        Ret (Some (Some index), g_heap_pop_last h1, w)
      else
        let* h1 := g_heap_swap h other_pos 0 in
        let* h2 := g_heap_clear_pos h1 index in
        let* (b, h3, w1) := p_move_towards_leaves (g_heap_pop_last h2) w 0 in
        Ret (if b then Some (Some index) else None, h3, w1)
  end.

(** The loops of heap.rs 58-60 and 77-79, which end with the first panic *)
Fixpoint p_all (op : shape -> W -> nat -> res (bool * shape * W)) (ks : list nat) (h : shape) (w : W) : res (bool * shape * W) :=
  match ks with
  | [] => Ret (true, h, w)
  | k :: r =>
      let* (b, h1, w1) := op h w k in
      if b then p_all op r h1 w1 else Ret (false, h1, w1)
  end.

(** resize, heap.rs 51-65; the new values are part of the world. *)
Definition p_resize (h : shape) (w : W) (len : nat) : res (bool * shape * W) :=
  guard (N.of_nat len <=? 4294967296)%N else PAssert in
  let* (b, h1, w1) :=
    if Nat.ltb len (length (g_h_values h))
    then p_all p_dequeue (seq len (length (g_h_values h) - len)) h w
    else Ret (true, h, w) in
  if b then Ret (true, g_mkHeap (vresize (g_h_values h1) len tt) (vresize (g_h_pos h1) len None) (g_h_heap h1), w1)
  else Ret (false, h1, w1).

(** resize, heap.rs 51-65, if the call of [clone] with number [k], counted from 0, panics
    in line 63.  To add [n] values, [Vec::resize] clones the given one [n - 1] times; the
    clones made before a panic stay in the vector.  Line 64 is not reached. *)
Definition p_resize_clone (h : shape) (w : W) (len k : nat) : res (bool * shape * W) :=
  guard (N.of_nat len <=? 4294967296)%N else PAssert in
  if Nat.ltb (k + 1) (len - length (g_h_values h))
  then Ret (false, g_mkHeap (g_h_values h ++ repeat tt k) (g_h_pos h) (g_h_heap h), w)
  else p_resize h w len.

(** resize, heap.rs 51-65, if the destructor of a removed value panics in line 63.
    [Vec::resize] then shortens the vector before it drops the values.  Line 64 is not
    reached. *)
Definition p_resize_drop (h : shape) (w : W) (len : nat) : res (bool * shape * W) :=
  guard (N.of_nat len <=? 4294967296)%N else PAssert in
  if Nat.ltb len (length (g_h_values h)) then
    let* (b, h1, w1) := p_all p_dequeue (seq len (length (g_h_values h) - len)) h w in
    if b then Ret (false, g_mkHeap (vresize (g_h_values h1) len tt) (g_h_pos h1) (g_h_heap h1), w1)
    else Ret (false, h1, w1)
  else p_resize h w len.

(** The heap that enqueue_usize, heap.rs 133-144, has made when it calls
    move_towards_root, which it leaves behind if line 177 panics *)
Definition p_enqueue_pushed (h : shape) (index : nat) : res shape :=
  let* ps := vset (g_h_pos h) index (Some (length (g_h_heap h))) in
  Ret (g_mkHeap (g_h_values h) ps (g_h_heap h ++ [index])).

(** resize_enqueued, heap.rs 71-80; [init] writes the new values. *)
Definition p_resize_enqueued (h : shape) (w : W) (len : nat) (init : W -> W) : res (bool * shape * W) :=
  let old_len := g_heap_len h in
  let* (b, h1, w1) := p_resize h w len in
  if b then p_all p_enqueue (seq old_len (len - old_len)) h1 (init w1) else Ret (false, h1, w1).

(** increase_usize, heap.rs 232-239; [f] returns [false] if it panics. *)
Definition p_increase (h : shape) (w : W) (index : nat) (f : W -> W * bool) : res (bool * shape * W) :=
  let* _ := vget (g_h_values h) index in
  let '(w1, b) := f w in
  if b then
    let* p := vget (g_h_pos h) index in
    match g_pos_in h p with
    | Some pos => p_move_towards_root h w1 pos
    | None => Ret (true, h, w1)
    end
  else Ret (false, h, w1).

(** apply_monotone, heap.rs 245-249, does not touch positions and heap.  [f] is called
    for the values of all indices up to the first panic. *)
Fixpoint p_apply_loop (f : W -> nat -> W * bool) (ks : list nat) (w : W) : bool * W :=
  match ks with
  | [] => (true, w)
  | k :: r => let '(w1, b) := f w k in if b then p_apply_loop f r w1 else (false, w1)
  end.
(** apply_monotone, heap.rs 245-249 *)
Definition p_apply_monotone (h : shape) (w : W) (f : W -> nat -> W * bool) : bool * shape * W :=
  let '(b, w1) := p_apply_loop f (seq 0 (length (g_h_values h))) w in (b, h, w1).

End World.
