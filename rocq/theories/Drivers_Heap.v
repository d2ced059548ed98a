(** Histories of [MaxHeap] calls, with the abstract state they lead to.

    [hist deq h vals M]: some sequence of calls starting from the empty heap
    leads to [h]; [vals] are the values set so far and [M] tells which indices
    were enqueued and not dequeued or popped since.  If [deq] is [false] the
    history contains no [dequeue] and no shrinking [resize].  Arguments satisfy
    the documented contracts: indices exist, [increase] does not decrease a
    value, [apply_monotone] is given a monotone function, and lengths are at
    most 2^32. *)
From Coq Require Import NArith List Bool Arith.
From Verif Require Import Model_Base Model_Heap.
Import ListNotations.

Definition monotone (f : N -> N) : Prop := forall a b, (a <= b)%N -> (f a <= f b)%N.

Inductive hist (deq : bool) : heap -> list N -> (nat -> bool) -> Prop :=
| hist_new : hist deq heap_empty [] (fun _ => false)
| hist_resize h vals M n v h' :
    hist deq h vals M -> (N.of_nat n <= 4294967296)%N ->
    (deq = false -> length vals <= n) ->
    heap_resize h n v = Ret h' ->
    hist deq h' (vresize vals n v) (fun i => M i && (i <? n))
| hist_resize_enqueued h vals M n v h' :
    hist deq h vals M -> (N.of_nat n <= 4294967296)%N ->
    (deq = false -> length vals <= n) ->
    heap_resize_enqueued h n v = Ret h' ->
    hist deq h' (vresize vals n v) (fun i => (M i || (length vals <=? i)) && (i <? n))
| hist_enqueue h vals M i h' :
    hist deq h vals M -> i < length vals ->
    enqueue h i = Ret h' ->
    hist deq h' vals (fun j => M j || (j =? i))
| hist_dequeue h vals M i h' :
    deq = true ->
    hist deq h vals M -> i < length vals ->
    dequeue h i = Ret h' ->
    hist deq h' vals (fun j => M j && negb (j =? i))
| hist_increase h vals M i f h' :
    hist deq h vals M -> i < length vals -> (nth i vals 0 <= f (nth i vals 0))%N ->
    increase h i f = Ret h' ->
    hist deq h' (upd vals i (f (nth i vals 0%N))) M
| hist_apply h vals M f :
    hist deq h vals M -> monotone f ->
    hist deq (apply_monotone h f) (map f vals) M
| hist_pop h vals M i h' :
    hist deq h vals M ->
    pop_max h = Ret (Some i, h') ->
    hist deq h' vals (fun j => M j && negb (j =? i))
| hist_pop_none h vals M h' :
    hist deq h vals M ->
    pop_max h = Ret (None, h') ->
    hist deq h' vals M.
