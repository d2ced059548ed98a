(** C105: the heap after a panic of a destructor. *)
From Coq Require Import NArith List Bool Arith Lia.
From Verif Require Import Model_Base Model_Heap Model_HeapAny Model_HeapPanic Spec Proof_Base Proof_Heap Proof_HeapAny Prop_HeapPanic.
Import ListNotations.

(** ** Specification *)
(** [h'] is [h] with [k] further positions that have no values; none of them is in use. *)
Definition spare (k : nat) (h h' : shape) : Prop :=
  len h' = len h /\ g_h_pos h' = g_h_pos h ++ repeat None k /\ g_h_heap h' = g_h_heap h.

Section World.
Context {W : Type} (vlt vgt : W -> nat -> nat -> W * option bool).

(** ** Heaps with more positions than values *)
Let ext (k : nat) (h : shape) : shape := g_mkHeap (g_h_values h) (g_h_pos h ++ repeat None k) (g_h_heap h).
Lemma spare_ext k h h' : spare k h h' <-> h' = ext k h.
Proof.
  unfold spare, ext, len, g_heap_len. destruct h as [v p q], h' as [v' p' q']. cbn [g_h_values g_h_pos g_h_heap]. split.
  - intros (A & -> & ->). f_equal. rewrite (all_tt v'), A, <- all_tt. reflexivity.
  - intro E. injection E as -> -> ->. auto.
Qed.
Lemma app_vget {A} (v r : list A) i a : vget v i = Ret a -> vget (v ++ r) i = Ret a.
Proof. intro E. apply vget_ok in E. apply vget_ok. rewrite nth_error_app1; [exact E|]. apply nth_error_Some. congruence. Qed.
Lemma app_vset {A} (v r : list A) i a v1 : vset v i a = Ret v1 -> vset (v ++ r) i a = Ret (v1 ++ r).
Proof. intro E. apply vset_ok in E as [L ->]. apply vset_ok. rewrite app_length. split; [lia|]. rewrite upd_app_l by exact L. reflexivity. Qed.
Lemma app_vswap {A} (v r : list A) a b v1 : vswap v a b = Ret v1 -> vswap (v ++ r) a b = Ret (v1 ++ r).
Proof.
  unfold vswap. destruct (vget v a) as [x| |] eqn:E1; try discriminate. rewrite (app_vget _ r _ _ E1). cbn [bind].
  destruct (vget v b) as [y| |] eqn:E2; try discriminate. rewrite (app_vget _ r _ _ E2). cbn [bind].
  destruct (vset v a y) as [v2| |] eqn:E3; try discriminate. rewrite (app_vset _ r _ _ _ E3). cbn [bind]. apply app_vset.
Qed.
Lemma ext_swap k h a b h1 : g_heap_swap h a b = Ret h1 -> g_heap_swap (ext k h) a b = Ret (ext k h1).
Proof.
  unfold g_heap_swap. change (g_h_heap (ext k h)) with (g_h_heap h). destruct (vswap (g_h_heap h) a b) as [hp| |]; try discriminate. cbn [bind].
  destruct (vget hp a) as [ia| |]; try discriminate. destruct (vget hp b) as [ib| |]; try discriminate. cbn [bind].
  cbn [ext g_h_pos]. destruct (vswap (g_h_pos h) ia ib) as [ps| |] eqn:E1; try discriminate. rewrite (app_vswap _ _ _ _ _ E1). cbn [bind]. intro E. injection E as <-. reflexivity.
Qed.
Lemma ext_clear k h i h1 : g_heap_clear_pos h i = Ret h1 -> g_heap_clear_pos (ext k h) i = Ret (ext k h1).
Proof.
  unfold g_heap_clear_pos. cbn [ext g_h_pos]. destruct (vset (g_h_pos h) _ _) as [ps| |] eqn:E1; try discriminate. rewrite (app_vset _ _ _ _ _ E1). cbn [bind].
  intro E. injection E as <-. reflexivity.
Qed.
Lemma ext_root k fuel : forall h w v pos b h1 w1, p_root_loop vlt fuel h w v pos = Ret (b, h1, w1) -> p_root_loop vlt fuel (ext k h) w v pos = Ret (b, ext k h1, w1).
Proof.
  induction fuel as [|f IH]; intros h w v [|q] b h1 w1 E; cbn [p_root_loop] in *; try discriminate; try (injection E as <- <- <-; reflexivity).
  change (p_index_at (ext k h)) with (p_index_at h). destruct (p_index_at h _) as [pi| |] eqn:E1; try discriminate. cbn [bind] in *.
  destruct (vlt w pi v) as [w2 [[|]|]]; try (injection E as <- <- <-; reflexivity).
  destruct (g_heap_swap h _ _) as [h2| |] eqn:E2; try discriminate. rewrite (ext_swap k _ _ _ _ E2). cbn [bind] in *. auto.
Qed.
Lemma ext_move_root k h w pos b h1 w1 : p_move_towards_root vlt h w pos = Ret (b, h1, w1) -> p_move_towards_root vlt (ext k h) w pos = Ret (b, ext k h1, w1).
Proof.
  unfold p_move_towards_root. change (p_index_at (ext k h)) with (p_index_at h). destruct (p_index_at h pos) as [i| |]; try discriminate. cbn [bind]. apply ext_root.
Qed.
Lemma ext_leaves k fuel : forall h w v pos b h1 w1, p_leaves_loop vlt fuel h w v pos = Ret (b, h1, w1) -> p_leaves_loop vlt fuel (ext k h) w v pos = Ret (b, ext k h1, w1).
Proof.
  induction fuel as [|f IH]; intros h w v pos b h1 w1 E; cbn [p_leaves_loop] in *; try discriminate.
  change (p_pick vlt (ext k h)) with (p_pick vlt h). destruct (p_pick vlt h w _ pos v) as [[o1 w2]| |] eqn:E1; try discriminate. cbn [bind] in *.
  destruct o1 as [[sp1 sv1]|]; [|injection E as <- <- <-; reflexivity].
  destruct (p_pick vlt h w2 _ sp1 sv1) as [[o2 w3]| |] eqn:E2; try discriminate. cbn [bind] in *.
  destruct o2 as [[sp2 sv2]|]; [|injection E as <- <- <-; reflexivity]. destruct (sp2 =? pos); [injection E as <- <- <-; reflexivity|].
  destruct (g_heap_swap h _ _) as [h2| |] eqn:E3; try discriminate. rewrite (ext_swap k _ _ _ _ E3). cbn [bind] in *. auto.
Qed.
Lemma ext_move_leaves k h w pos b h1 w1 : p_move_towards_leaves vlt h w pos = Ret (b, h1, w1) -> p_move_towards_leaves vlt (ext k h) w pos = Ret (b, ext k h1, w1).
Proof.
  unfold p_move_towards_leaves. change (p_index_at (ext k h)) with (p_index_at h). destruct (p_index_at h pos) as [i| |]; try discriminate. cbn [bind]. apply ext_leaves.
Qed.
Lemma ext_enqueue k h w i b h1 w1 : p_enqueue vlt h w i = Ret (b, h1, w1) -> p_enqueue vlt (ext k h) w i = Ret (b, ext k h1, w1).
Proof.
  unfold p_enqueue. cbn [ext g_h_pos]. destruct (vget (g_h_pos h) i) as [p| |] eqn:E1; try discriminate. rewrite (app_vget _ _ _ _ E1). cbn [bind].
  change (g_pos_in (ext k h) p) with (g_pos_in h p). destruct (g_pos_in h p); [intro E; injection E as <- <- <-; reflexivity|].
  change (g_h_heap (ext k h)) with (g_h_heap h). destruct (vset (g_h_pos h) _ _) as [ps| |] eqn:E2; try discriminate. rewrite (app_vset _ _ _ _ _ E2). cbn [bind].
  apply (ext_move_root k (g_mkHeap (g_h_values h) ps (g_h_heap h ++ [i]))).
Qed.
Lemma ext_dequeue k h w i b h1 w1 : p_dequeue vlt vgt h w i = Ret (b, h1, w1) -> p_dequeue vlt vgt (ext k h) w i = Ret (b, ext k h1, w1).
Proof.
  unfold p_dequeue. cbn [ext g_h_pos]. destruct (vget (g_h_pos h) i) as [p| |] eqn:E0; try discriminate. rewrite (app_vget _ _ _ _ E0). cbn [bind].
  change (g_pos_in (ext k h) p) with (g_pos_in h p). destruct (g_pos_in h p) as [pos|]; [|intro E; injection E as <- <- <-; reflexivity].
  change (g_h_heap (ext k h)) with (g_h_heap h). destruct (_ =? pos).
  - destruct (g_heap_clear_pos h i) as [h2| |] eqn:E1; try discriminate. rewrite (ext_clear k _ _ _ E1). cbn [bind]. intro E. injection E as <- <- <-. reflexivity.
  - destruct (g_heap_swap h _ _) as [h2| |] eqn:E1; try discriminate. rewrite (ext_swap k _ _ _ _ E1). cbn [bind].
    destruct (g_heap_clear_pos h2 i) as [h3| |] eqn:E2; try discriminate. rewrite (ext_clear k _ _ _ E2). cbn [bind].
    change (g_heap_pop_last (ext k h3)) with (ext k (g_heap_pop_last h3)). change (p_index_at (ext k (g_heap_pop_last h3))) with (p_index_at (g_heap_pop_last h3)).
    destruct (p_index_at (g_heap_pop_last h3) pos) as [mi| |]; try discriminate. cbn [bind]. change (g_h_values (ext k (g_heap_pop_last h3))) with (g_h_values (g_heap_pop_last h3)).
    destruct (vget (g_h_values (g_heap_pop_last h3)) i) as [u| |]; try discriminate. cbn [bind].
    destruct (vgt w mi i) as [w2 [[|]|]]; [apply ext_move_leaves|apply ext_move_root|intro E; injection E as <- <- <-; reflexivity].
Qed.
Lemma ext_pop k h w o h1 w1 : p_pop_max vlt h w = Ret (o, h1, w1) -> p_pop_max vlt (ext k h) w = Ret (o, ext k h1, w1).
Proof.
  unfold p_pop_max. change (g_h_heap (ext k h)) with (g_h_heap h). destruct (g_h_heap h) as [|i r] eqn:Eh; [intro E; injection E as <- <- <-; reflexivity|].
  destruct (_ =? 0).
  - destruct (g_heap_clear_pos h i) as [h2| |] eqn:E1; try discriminate. rewrite (ext_clear k _ _ _ E1). cbn [bind]. intro E. injection E as <- <- <-. reflexivity.
  - destruct (g_heap_swap h _ _) as [h2| |] eqn:E1; try discriminate. rewrite (ext_swap k _ _ _ _ E1). cbn [bind].
    destruct (g_heap_clear_pos h2 i) as [h3| |] eqn:E2; try discriminate. rewrite (ext_clear k _ _ _ E2). cbn [bind].
    change (g_heap_pop_last (ext k h3)) with (ext k (g_heap_pop_last h3)).
    destruct (p_move_towards_leaves vlt (g_heap_pop_last h3) w 0) as [[[b h4] w2]| |] eqn:E3; try discriminate. rewrite (ext_move_leaves k _ _ _ _ _ _ E3). cbn [bind].
    intro E. injection E as <- <- <-. reflexivity.
Qed.
Lemma ext_increase k h w i f b h1 w1 : p_increase vlt h w i f = Ret (b, h1, w1) -> p_increase vlt (ext k h) w i f = Ret (b, ext k h1, w1).
Proof.
  unfold p_increase. change (g_h_values (ext k h)) with (g_h_values h). destruct (vget (g_h_values h) i) as [u| |]; try discriminate. cbn [bind].
  destruct (f w) as [w2 [|]]; [|intro E; injection E as <- <- <-; reflexivity]. cbn [ext g_h_pos].
  destruct (vget (g_h_pos h) i) as [p| |] eqn:E1; try discriminate. rewrite (app_vget _ _ _ _ E1). cbn [bind]. change (g_pos_in (ext k h) p) with (g_pos_in h p).
  destruct (g_pos_in h p) as [pos|]; [apply ext_move_root|intro E; injection E as <- <- <-; reflexivity].
Qed.
Lemma ext_all k ks : forall h w b h1 w1, p_all (p_dequeue vlt vgt) ks h w = Ret (b, h1, w1) -> p_all (p_dequeue vlt vgt) ks (ext k h) w = Ret (b, ext k h1, w1).
Proof.
  induction ks as [|a ks IH]; intros h w b h1 w1 E; cbn [p_all] in *; [injection E as <- <- <-; reflexivity|].
  destruct (p_dequeue vlt vgt h w a) as [[[b2 h2] w2]| |] eqn:E1; try discriminate. rewrite (ext_dequeue k _ _ _ _ _ _ E1). cbn [bind] in *.
  destruct b2; [auto|]. injection E as <- <- <-. reflexivity.
Qed.
Lemma resize_spare (l : list (option nat)) k n :  vresize (l ++ repeat None k) n None = vresize l n None.
Proof.
  unfold vresize. rewrite app_length, repeat_length, firstn_app, <- app_assoc. f_equal. destruct (Nat.le_gt_cases k (n - length l)) as [L|L].
  - rewrite firstn_all2 by (rewrite repeat_length; exact L). rewrite <- repeat_app. f_equal. lia.
  - replace (n - (length l + k)) with 0 by lia. cbn [repeat]. rewrite app_nil_r. replace k with ((n - length l) + (k - (n - length l))) at 1 by lia.
    rewrite repeat_app, firstn_app, repeat_length, Nat.sub_diag, firstn_O, app_nil_r. apply firstn_all2. rewrite repeat_length. lia.
Qed.
Lemma ext_resize k h w n b h1 w1 : p_resize vlt vgt h w n = Ret (b, h1, w1) -> p_resize vlt vgt (ext k h) w n = Ret (b, if b then h1 else ext k h1, w1).
Proof.
  unfold p_resize. destruct (N.of_nat n <=? 4294967296)%N; try discriminate. change (g_h_values (ext k h)) with (g_h_values h). destruct (n <? _).
  - destruct (p_all _ _ h w) as [[[b2 h2] w2]| |] eqn:E1; try discriminate. rewrite (ext_all k _ _ _ _ _ _ E1). cbn [bind].
    destruct b2; intro E; injection E as <- <- <-; [|reflexivity]. cbn [ext g_h_pos g_h_values g_h_heap]. rewrite resize_spare. reflexivity.
  - cbn [bind]. intro E. injection E as <- <- <-. cbn [ext g_h_pos g_h_values g_h_heap]. rewrite resize_spare. reflexivity.
Qed.
Lemma spare_positions (h : shape) n : g_HS h -> n <= length (g_h_values h) -> (forall j, In j (g_h_heap h) -> j < n) ->
  g_h_pos h = vresize (g_h_pos h) n None ++ repeat None (length (g_h_values h) - n).
Proof.
  intros H L M. apply nth_error_eq. intro i. pose proof (g_hs_len h H) as Lp. unfold vresize. replace (n - length (g_h_pos h)) with 0 by lia. cbn [repeat]. rewrite app_nil_r.
  destruct (Nat.lt_ge_cases i n) as [Hi|Hi].
  - rewrite nth_error_app1 by (rewrite firstn_length; lia). rewrite nth_error_firstn. destruct (Nat.ltb_spec i n); [reflexivity|lia].
  - rewrite nth_error_app2 by (rewrite firstn_length; lia). rewrite firstn_length, Nat.min_l by lia. destruct (Nat.lt_ge_cases i (length (g_h_values h))) as [Hl|Hl].
    + rewrite nth_error_repeat by lia. destruct (nth_error (g_h_pos h) i) as [[p|]|] eqn:E; [|reflexivity|apply nth_error_None in E; lia].
      apply (g_hs_heap h H) in E. apply nth_error_In, M in E. lia.
    + rewrite !(proj2 (nth_error_None _ _)); [reflexivity|rewrite repeat_length; lia|lia].
Qed.

(** ** C105 *)
(** A panic of a destructor comes after the removed indices have been dequeued.  It
    leaves the heap that [resize] would have made, but for spare positions. *)
Theorem drop_panic_partial h w n b h' w' : panic_hist vlt vgt h w -> n < len h -> p_resize_drop vlt vgt h w n = Ret (b, h', w') ->
  b = false /\ exists b1 h1, p_resize vlt vgt h w n = Ret (b1, h1, w') /\ if b1 then spare (len h - n) h1 h' else h1 = h'.
Proof.
  intros HH L E. pose proof (hist_HS vlt vgt h w HH) as H. unfold len, g_heap_len in *. unfold p_resize_drop in E. unfold p_resize. destruct (N.of_nat n <=? 4294967296)%N; try discriminate.
  destruct (Nat.ltb_spec n (length (g_h_values h))); [|lia].
  destruct (deq_all vlt vgt (length (g_h_values h) - n) n h w H ltac:(lia)) as (b1 & h1 & w1 & k & E1 & A & B & M & K & _). rewrite E1 in *. cbn [bind] in *. destruct b1.
  - injection E as <- <- <-. split; [reflexivity|]. eexists true, _. split; [reflexivity|]. unfold spare, len, g_heap_len. cbn [g_h_values g_h_pos g_h_heap].
    split; [reflexivity|]. split; [|reflexivity]. rewrite <- B. apply spare_positions; [exact A|rewrite B; lia|]. intros j Hj. apply M in Hj as [J1 J2]. pose proof (g_hs_in_lt h j H J1). lia.
  - injection E as <- <- <-. split; [reflexivity|]. exists false, h1. auto.
Qed.

(** On such a heap all calls for the indices below [len()], [pop_max] and changes of the
    size do what they do on the heap without spare positions.  A change of the size
    that returns removes the spare positions. *)
Theorem drop_panic_calls_partial k h h' w : spare k h h' -> panic_hist vlt vgt h w ->
  (forall i, i < len h -> g_is_enqueued h' i = g_is_enqueued h i) /\
  (forall i, i < len h -> exists b h1 h1' w1,
     p_enqueue vlt h w i = Ret (b, h1, w1) /\ p_enqueue vlt h' w i = Ret (b, h1', w1) /\ spare k h1 h1') /\
  (forall i, i < len h -> exists b h1 h1' w1,
     p_dequeue vlt vgt h w i = Ret (b, h1, w1) /\ p_dequeue vlt vgt h' w i = Ret (b, h1', w1) /\ spare k h1 h1') /\
  (forall i f, i < len h -> exists b h1 h1' w1,
     p_increase vlt h w i f = Ret (b, h1, w1) /\ p_increase vlt h' w i f = Ret (b, h1', w1) /\ spare k h1 h1') /\
  (exists o h1 h1' w1,
     p_pop_max vlt h w = Ret (o, h1, w1) /\ p_pop_max vlt h' w = Ret (o, h1', w1) /\ spare k h1 h1') /\
  (forall n, (N.of_nat n <= 4294967296)%N -> exists b h1 h1' w1,
     p_resize vlt vgt h w n = Ret (b, h1, w1) /\ p_resize vlt vgt h' w n = Ret (b, h1', w1) /\ if b then h1' = h1 else spare k h1 h1').
Proof.
  intros L H. apply spare_ext in L. subst h'. destruct (panic_safe vlt vgt h w H) as (_ & _ & A & B & C & D). split; [|split; [|split; [|split; [|split]]]].
  - intros i Hi. unfold g_is_enqueued. cbn [ext g_h_pos]. unfold vget. rewrite nth_error_app1; [reflexivity|]. rewrite (g_hs_len h (hist_HS vlt vgt h w H)). exact Hi.
  - intros i Hi. destruct (A i Hi) as (b & h1 & w1 & E & _). exists b, h1, (ext k h1), w1. split; [exact E|]. split; [exact (ext_enqueue k _ _ _ _ _ _ E)|]. apply spare_ext. reflexivity.
  - intros i Hi. destruct (B i Hi) as (b & h1 & w1 & E & _). exists b, h1, (ext k h1), w1. split; [exact E|]. split; [exact (ext_dequeue k _ _ _ _ _ _ E)|]. apply spare_ext. reflexivity.
  - intros i f Hi. destruct (C i f Hi) as (b & h1 & w1 & E & _). exists b, h1, (ext k h1), w1. split; [exact E|]. split; [exact (ext_increase k _ _ _ _ _ _ _ E)|]. apply spare_ext. reflexivity.
  - destruct D as (o & h1 & w1 & E & _). exists o, h1, (ext k h1), w1. split; [exact E|]. split; [exact (ext_pop k _ _ _ _ _ E)|]. apply spare_ext. reflexivity.
  - intros n Hn. destruct (panic_resize vlt vgt h w n (fun w => w) H Hn) as [(b & h1 & w1 & E & _) _]. exists b, h1, (if b then h1 else ext k h1), w1.
    split; [exact E|]. split; [exact (ext_resize k _ _ _ _ _ _ E)|]. destruct b; [reflexivity|]. apply spare_ext. reflexivity.
Qed.
End World.

(** The spare positions can be seen: [is_enqueued] answers for indices that do not exist.
    [enqueue] for such an index panics, but only after it has enqueued it; after that
    the heap no longer works for the indices that exist. *)
Theorem drop_panic_refuted : exists (vlt : unit -> nat -> nat -> unit * option bool) h h' h'' i,
  calm vlt vlt /\ panic_hist vlt vlt h tt /\ p_resize_drop vlt vlt h tt 1 = Ret (false, h', tt) /\
  len h' <= i /\ enqueued h' 0 /\ g_is_enqueued h' i = Ret false /\
  p_enqueue vlt h' tt i = Panic PBounds /\ p_enqueue_pushed h' i = Ret h'' /\ p_pop_max vlt h'' tt = Panic PBounds.
Proof.
  exists (fun w _ _ => (w, Some false)). destruct (p_resize_enqueued (fun w (_ _ : nat) => (w, Some false)) (fun w _ _ => (w, Some false)) g_heap_empty tt 3 (fun w => w)) as [[[b h] []]| |] eqn:E; [|discriminate|discriminate].
  exists h. assert (H : panic_hist (fun w (_ _ : nat) => (w, Some false)) (fun w _ _ => (w, Some false)) h tt).
  { eapply ph_resize_enqueued; [apply (ph_new _ _ tt)| |exact E]. intro Q. discriminate Q. }
  vm_compute in E. injection E as <- <-. eexists _, _, 2. split; [split; cbn; discriminate|]. split; [exact H|].
  split; [vm_compute; reflexivity|]. split; [vm_compute; auto|]. split; [vm_compute; reflexivity|]. split; [vm_compute; reflexivity|].
  split; [vm_compute; reflexivity|]. split; vm_compute; reflexivity.
Qed.
(** [p_enqueue_pushed] is the heap that the call of [move_towards_root] gets. *)
Theorem pushed_is_enqueue {W} (vlt : W -> nat -> nat -> W * option bool) h h1 w i : g_is_enqueued h i = Ret false -> p_enqueue_pushed h i = Ret h1 ->
  p_enqueue vlt h w i = p_move_towards_root vlt h1 w (length (g_h_heap h)).
Proof.
  unfold g_is_enqueued, p_enqueue_pushed, p_enqueue. destruct (vget (g_h_pos h) i) as [p| |]; try discriminate. cbn [bind].
  destruct (g_pos_in h p); [discriminate|]. intros _. destruct (vset _ _ _) as [ps| |]; try discriminate. cbn [bind]. intro E. injection E as <-. reflexivity.
Qed.

(** Three enqueued indices, of which one is left. *)
Example drop_panic_example : exists h h' w', panic_hist fifth fifth h 0 /\ len h = 3 /\ p_resize_drop fifth fifth h 0 1 = Ret (false, h', w') /\ len h' = 1 /\ length (g_h_pos h') = 3 /\ enqueued h' 0.
Proof.
  destruct (p_resize_enqueued fifth fifth g_heap_empty 0 3 (fun w => w)) as [[[b h] w]| |] eqn:E; [|discriminate|discriminate].
  assert (H : panic_hist fifth fifth h 0).
  { apply (ph_world _ _ h w). eapply ph_resize_enqueued; [apply (ph_new _ _ 0)| |exact E]. intro Q. discriminate Q. }
  vm_compute in E. injection E as <- <- <-. eexists _, _, _. split; [exact H|]. split; [reflexivity|]. split; [vm_compute; reflexivity|]. vm_compute. auto.
Qed.

Print Assumptions drop_panic_partial.
Print Assumptions drop_panic_calls_partial.
Print Assumptions drop_panic_refuted.
Print Assumptions pushed_is_enqueue.
