(** Histories of calls of a [MaxHeap] with any type of values, with the abstract state
    they lead to.

    [any_hist vlt vgt ok h vals M]: some sequence of calls starting from the empty
    heap leads to [h]; [vals] are the values set so far and [M] tells which indices
    were enqueued and not dequeued or popped since.  If [ok] is [true] the history
    contains no [dequeue] and no shrinking [resize], [increase] never makes a value
    less, and [apply_monotone] is only given monotone functions.  If [ok] is [false]
    the functions given to [increase] and [apply_monotone] are any functions. *)
From Coq Require Import NArith List Bool Arith.
From Verif Require Import Model_Base Model_HeapAny.
Import ListNotations.

Section Values.
Context {V : Type} (vlt vgt : V -> V -> bool).

(** An implementation of [Ord] that keeps its contract: [<] is asymmetric, and "not
    greater" is transitive.  (Values that compare as equal need not be equal.) *)
Definition lawful : Prop :=
  (forall a b, vlt a b = true -> vlt b a = false) /\
  (forall a b c, vlt b a = false -> vlt c b = false -> vlt c a = false).

Inductive any_hist (ok : bool) : @g_heap V -> list V -> (nat -> bool) -> Prop :=
| any_new : any_hist ok g_heap_empty [] (fun _ => false)
| any_resize h vals M n v h' :
    any_hist ok h vals M -> (N.of_nat n <= 4294967296)%N ->
    (ok = true -> length vals <= n) ->
    g_heap_resize vlt vgt h n v = Ret h' ->
    any_hist ok h' (vresize vals n v) (fun i => M i && (i <? n))
| any_resize_enqueued h vals M n v h' :
    any_hist ok h vals M -> (N.of_nat n <= 4294967296)%N ->
    (ok = true -> length vals <= n) ->
    g_heap_resize_enqueued vlt vgt h n v = Ret h' ->
    any_hist ok h' (vresize vals n v) (fun i => (M i || (length vals <=? i)) && (i <? n))
| any_enqueue h vals M i h' :
    any_hist ok h vals M -> i < length vals ->
    g_enqueue vlt h i = Ret h' ->
    any_hist ok h' vals (fun j => M j || (j =? i))
| any_dequeue h vals M i h' :
    ok = false ->
    any_hist ok h vals M -> i < length vals ->
    g_dequeue vlt vgt h i = Ret h' ->
    any_hist ok h' vals (fun j => M j && negb (j =? i))
| any_increase h vals M i v f h' :
    any_hist ok h vals M -> nth_error vals i = Some v ->
    (ok = true -> vlt (f v) v = false) ->
    g_increase vlt h i f = Ret h' ->
    any_hist ok h' (upd vals i (f v)) M
| any_apply h vals M f :
    any_hist ok h vals M ->
    (ok = true -> forall a b, vlt b a = false -> vlt (f b) (f a) = false) ->
    any_hist ok (g_apply_monotone h f) (map f vals) M
| any_pop h vals M i h' :
    any_hist ok h vals M ->
    g_pop_max vlt h = Ret (Some i, h') ->
    any_hist ok h' vals (fun j => M j && negb (j =? i))
| any_pop_none h vals M h' :
    any_hist ok h vals M ->
    g_pop_max vlt h = Ret (None, h') ->
    any_hist ok h' vals M.

End Values.
