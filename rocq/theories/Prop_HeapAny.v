(** C101: the heap with any type of values. *)
From Coq Require Import NArith List Bool Arith Lia.
From Verif Require Import Model_Base Model_Heap Model_HeapAny Drivers_HeapAny Spec Proof_Base Proof_Heap Proof_HeapAny.
Import ListNotations.

Section Values.
Context {V : Type} (vlt vgt : V -> V -> bool).

Definition gabs (d : V) (ok : bool) (h : g_heap) (vals : list V) (M : nat -> bool) : Prop :=
  g_HS h /\ g_h_values h = vals /\ (forall i, M i = true <-> In i (g_h_heap h)) /\ (ok = true -> g_HO vlt d h).

Lemma any_inv d ok h vals M : any_hist vlt vgt ok h vals M -> gabs d ok h vals M.
Proof.
  unfold gabs.
  induction 1 as [|h vals M n v h' _ (A & B & C & D) Hn Hd E|h vals M n v h' _ (A & B & C & D) Hn Hd E
    |h vals M i h' _ (A & B & C & D) Hi E|h vals M i h' -> _ (A & B & C & D) Hi E
    |h vals M i v f h' _ (A & B & C & D) Hi Hf E|h vals M f _ (A & B & C & D) Hf
    |h vals M i h' _ (A & B & C & D) E|h vals M h' _ (A & B & C & D) E].
  - split; [apply g_HS_empty|]. split; auto. split; [intro; split; simpl; [discriminate|contradiction]|].
    intro. apply (g_HO_empty vlt vgt d).
  - destruct (g_heap_resize_ok vlt vgt d h n v A Hn) as (h1 & E1 & A1 & B1 & C1 & D1). rewrite E in E1. inv E1.
    split; auto. split; auto. split.
    + intro i. rewrite C1, andb_true_iff, C, Nat.ltb_lt. tauto.
    + intro Hq. apply D1; auto.
  - destruct (g_heap_resize_enqueued_ok vlt vgt d h n v A Hn) as (h1 & E1 & A1 & B1 & C1 & D1). rewrite E in E1. inv E1.
    split; auto. split; auto. split.
    + intro i. rewrite C1, andb_true_iff, orb_true_iff, C, Nat.ltb_lt, Nat.leb_le. tauto.
    + intro Hq. apply D1; auto.
  - rewrite <- B in Hi. destruct (g_enqueue_ok vlt vgt d h i A Hi) as (h1 & E1 & A1 & B1 & C1 & D1). rewrite E in E1. inv E1.
    split; auto. split; auto. split; auto.
    intro j. rewrite C1, orb_true_iff, C, Nat.eqb_eq. tauto.
  - rewrite <- B in Hi. destruct (g_dequeue_ok vlt vgt d h i A Hi) as (h1 & E1 & A1 & B1 & C1). rewrite E in E1. inv E1.
    split; auto. split; auto. split; [|discriminate].
    intro j. rewrite C1, andb_true_iff, C, negb_true_iff, Nat.eqb_neq. tauto.
  - assert (Hl : i < length vals) by (apply nth_error_Some; congruence). rewrite <- B in Hl.
    destruct (g_increase_ok vlt vgt d h i f A Hl) as (h1 & E1 & A1 & B1 & C1 & D1). rewrite E in E1. inv E1.
    assert (Q : nth i (g_h_values h) d = v) by (apply nth_error_nth; exact Hi). rewrite Q in *.
    split; auto. split; auto. split.
    + intro j. rewrite C1. apply C.
    + intro T. apply D1; auto. intros _. auto.
  - destruct (g_apply_monotone_ok vlt vgt d h f A) as (A1 & B1 & D1). split; auto. split; [congruence|]. split; auto.
    intro T. apply D1; auto. intros a b L W. apply Hf; auto.
  - pose proof (g_pop_max_ok vlt vgt d h A) as P. destruct (g_h_heap h) as [|k r] eqn:Eh.
    { rewrite P in E. discriminate. }
    destruct P as (h1 & E1 & (A1 & B1 & C1) & D1). rewrite E in E1. inv E1.
    split; auto. split; auto. split; [|intro Hq; apply D1; auto].
    intro j. rewrite C1, andb_true_iff, C, negb_true_iff, Nat.eqb_neq. rewrite Eh. tauto.
  - pose proof (g_pop_max_ok vlt vgt d h A) as P. destruct (g_h_heap h) as [|k r] eqn:Eh.
    { rewrite P in E. inv E. split; auto. split; auto. split; auto. rewrite Eh. auto. }
    destruct P as (h1 & E1 & _). rewrite E in E1. discriminate.
Qed.

(** Without a value there is nothing to insert. *)
Lemma any_some ok h vals M : any_hist vlt vgt ok h vals M -> (exists d : V, True) \/ (h = g_heap_empty /\ vals = [] /\ M = fun _ => false).
Proof.
  induction 1; auto; try (left; exists v; exact I);
    match goal with IH : _ \/ _ |- _ => destruct IH as [|(-> & -> & ->)]; [left; assumption|] end.
  - simpl in *; lia.
  - simpl in *; lia.
  - right. split; [|auto]. reflexivity.
  - discriminate.
  - right. match goal with E : _ = Ret (None, _) |- _ => cbv in E; injection E as <- end. auto.
Qed.

(** Whatever the comparisons answer and whatever functions are passed in, the heap
    knows which indices are enqueued and which value every index has. *)
Theorem any_heap_exact ok h vals M i : any_hist vlt vgt ok h vals M ->
  (forall v, nth_error vals i = Some v -> g_is_enqueued h i = Ret (M i) /\ g_heap_value h i = Ret v) /\
  (nth_error vals i = None -> g_is_enqueued h i = Panic PBounds /\ g_heap_value h i = Panic PBounds /\ M i = false).
Proof.
  intro H. destruct (any_some _ _ _ _ H) as [[d _]|(-> & -> & ->)].
  2: { split; [intros v E; destruct i; discriminate|]. intros _. split; [destruct i; reflexivity|]. split; [destruct i; reflexivity|reflexivity]. }
  pose proof (any_inv d _ _ _ _ H) as (A & B & C & _). subst vals. split; [intros v Hv|intro Hi].
  - assert (Hi : i < length (g_h_values h)) by (apply nth_error_Some; congruence).
    destruct (g_is_enqueued_ok vlt vgt d h i A Hi) as (b & -> & Hb). split.
    + f_equal. specialize (C i). destruct b, (M i); auto; [symmetry|]; tauto.
    + unfold g_heap_value. apply vget_ok. exact Hv.
  - apply nth_error_None in Hi. split; [|split].
    + unfold g_is_enqueued, vget. rewrite (proj2 (nth_error_None _ _)); [reflexivity|]. rewrite (g_hs_len h A). exact Hi.
    + unfold g_heap_value, vget. rewrite (proj2 (nth_error_None _ _)) by exact Hi. reflexivity.
    + destruct (M i) eqn:E; auto. apply C, (g_hs_in_lt h i A) in E. lia.
Qed.

(** No call on existing indices panics or runs forever.  [pop_max] returns an enqueued
    index if there is one. *)
Theorem any_heap_total ok h vals M : any_hist vlt vgt ok h vals M ->
  (forall n v, (N.of_nat n <= 4294967296)%N -> exists h', g_heap_resize vlt vgt h n v = Ret h') /\
  (forall n v, (N.of_nat n <= 4294967296)%N -> exists h', g_heap_resize_enqueued vlt vgt h n v = Ret h') /\
  (forall i, i < length vals -> exists h', g_enqueue vlt h i = Ret h') /\
  (forall i, i < length vals -> exists h', g_dequeue vlt vgt h i = Ret h') /\
  (forall i f, i < length vals -> exists h', g_increase vlt h i f = Ret h') /\
  exists o h', g_pop_max vlt h = Ret (o, h') /\
    match o with
    | Some i => M i = true
    | None => forall i, M i = false
    end.
Proof.
  intro H.
  assert (Q : forall d : V, any_hist vlt vgt ok h vals M -> g_HS h /\ g_h_values h = vals /\ (forall i, M i = true <-> In i (g_h_heap h))).
  { intros d G. apply (any_inv d) in G as (A & B & C & _). auto. }
  split; [|split; [|split; [|split; [|split]]]].
  - intros n v L. destruct (Q v H) as (A & _). destruct (g_heap_resize_ok vlt vgt v h n v A L) as (h' & E & _). eauto.
  - intros n v L. destruct (Q v H) as (A & _). destruct (g_heap_resize_enqueued_ok vlt vgt v h n v A L) as (h' & E & _). eauto.
  - intros i L. destruct vals as [|d r] eqn:Ev; [simpl in L; lia|]. destruct (Q d H) as (A & B & _). rewrite <- B in L.
    destruct (g_enqueue_ok vlt vgt d h i A L) as (h' & E & _). eauto.
  - intros i L. destruct vals as [|d r] eqn:Ev; [simpl in L; lia|]. destruct (Q d H) as (A & B & _). rewrite <- B in L.
    destruct (g_dequeue_ok vlt vgt d h i A L) as (h' & E & _). eauto.
  - intros i f L. destruct vals as [|d r] eqn:Ev; [simpl in L; lia|]. destruct (Q d H) as (A & B & _). rewrite <- B in L.
    destruct (g_increase_ok vlt vgt d h i f A L) as (h' & E & _). eauto.
  - destruct (any_some _ _ _ _ H) as [[d _]|(-> & -> & ->)]; [|exists None, g_heap_empty; auto].
    destruct (Q d H) as (A & B & C). pose proof (g_pop_max_ok vlt vgt d h A) as P. destruct (g_h_heap h) as [|k r] eqn:Eh.
    + exists None, h. split; auto. intro i. destruct (M i) eqn:E; auto. apply C in E. contradiction.
    + destruct P as (h' & E & _). exists (Some k), h'. split; auto. apply C. left; auto.
Qed.

(** With a lawful order, and functions that keep the documented contract, and without
    [dequeue], [pop_max] returns an index with a largest value. *)
Theorem any_heap_max_partial h vals M : lawful vlt -> any_hist vlt vgt true h vals M ->
  exists o h', g_pop_max vlt h = Ret (o, h') /\
    match o with
    | Some i => M i = true /\ exists v, nth_error vals i = Some v /\
        forall j w, M j = true -> nth_error vals j = Some w -> vlt v w = false
    | None => forall i, M i = false
    end.
Proof.
  intros W H. destruct (any_some _ _ _ _ H) as [[d _]|(-> & -> & ->)]; [|exists None, g_heap_empty; auto].
  pose proof (any_inv d _ _ _ _ H) as (A & B & C & D). subst vals.
  pose proof (g_pop_max_ok vlt vgt d h A) as P. destruct (g_h_heap h) as [|k r] eqn:Eh.
  - exists None, h. split; auto. intro i. destruct (M i) eqn:E; auto. apply C in E. contradiction.
  - destruct P as (h' & E & _ & G). exists (Some k), h'. split; auto.
    assert (K : In k (k :: r)) by (left; auto). split; [apply C; exact K|].
    assert (L : k < length (g_h_values h)) by (apply (g_hs_in_lt h k A); rewrite Eh; exact K).
    exists (nth k (g_h_values h) d). split; [apply nth_error_nth'; exact L|].
    intros j w Mj Ew. destruct (G (D eq_refl)) as [_ G2]. specialize (G2 j (proj1 (C j) Mj) W).
    rewrite (nth_error_nth _ _ d Ew) in G2. exact G2.
Qed.
End Values.

(** ** The heap of natural numbers is an instance *)
Definition conv (h : heap) : g_heap := g_mkHeap (h_values h) (h_pos h) (h_heap h).
Definition conv_res (r : res heap) : res g_heap := let* h := r in Ret (conv h).
Definition conv_pop (r : res (option nat * heap)) : res (option nat * g_heap) := let* (o, h) := r in Ret (o, conv h).
Definition Ngt (a b : N) : bool := (b <? a)%N.

Lemma conv_swap h a b : g_heap_swap (conv h) a b = conv_res (heap_swap h a b).
Proof. unfold g_heap_swap, heap_swap, conv_res, conv. cbn. destruct (vswap _ _ _) as [hp| |]; cbn; auto. destruct (vget hp a); cbn; auto. destruct (vget hp b); cbn; auto. destruct (vswap _ _ _); reflexivity. Qed.
Lemma conv_value h p : g_value_at (conv h) p = value_at h p.
Proof. reflexivity. Qed.
Lemma conv_root fuel : forall h v pos, g_root_loop N.ltb fuel (conv h) v pos = conv_res (root_loop fuel h v pos).
Proof.
  induction fuel as [|f IH]; intros h v [|pos]; try reflexivity. cbn [g_root_loop root_loop]. rewrite conv_value.
  destruct (value_at _ _) as [pv| |]; cbn [bind conv_res]; auto. destruct (pv <? v)%N; [|reflexivity].
  rewrite conv_swap. destruct (heap_swap _ _ _) as [h'| |]; cbn [bind conv_res]; auto.
Qed.
Lemma conv_move_root h pos : g_move_towards_root N.ltb (conv h) pos = conv_res (move_towards_root h pos).
Proof. unfold g_move_towards_root, move_towards_root. rewrite conv_value. destruct (value_at _ _); cbn [bind conv_res]; auto. apply conv_root. Qed.
Lemma conv_leaves fuel : forall h v pos, g_leaves_loop N.ltb fuel (conv h) v pos = conv_res (leaves_loop fuel h v pos).
Proof.
  induction fuel as [|f IH]; intros h v pos; [reflexivity|]. cbn [g_leaves_loop leaves_loop]. rewrite !conv_value.
  change (length (g_h_heap (conv h))) with (length (h_heap h)).
  match goal with |- bind ?x _ = conv_res (bind ?y _) => change x with y; destruct y as [[sp sv]| |]; cbn [bind conv_res]; auto end.
  match goal with |- bind ?x _ = conv_res (bind ?y _) => change x with y; destruct y as [sp2| |]; cbn [bind conv_res]; auto end.
  destruct (sp2 =? pos); [reflexivity|]. rewrite conv_swap. destruct (heap_swap _ _ _) as [h'| |]; cbn [bind conv_res]; auto.
Qed.
Lemma conv_move_leaves h pos : g_move_towards_leaves N.ltb (conv h) pos = conv_res (move_towards_leaves h pos).
Proof. unfold g_move_towards_leaves, move_towards_leaves. rewrite conv_value. destruct (value_at _ _); cbn [bind conv_res]; auto. apply conv_leaves. Qed.
Lemma conv_clear h i : g_heap_clear_pos (conv h) i = conv_res (heap_clear_pos h i).
Proof. unfold g_heap_clear_pos, heap_clear_pos, conv_res. cbn. destruct (vset _ _ _); reflexivity. Qed.
Lemma conv_last h : g_heap_pop_last (conv h) = conv (heap_pop_last h).
Proof. reflexivity. Qed.
Lemma conv_in h p : g_pos_in (conv h) p = pos_in h p.
Proof. reflexivity. Qed.

Lemma conv_dequeue h i : g_dequeue N.ltb Ngt (conv h) i = conv_res (dequeue h i).
Proof.
  unfold g_dequeue, dequeue. change (g_h_pos (conv h)) with (h_pos h). destruct (vget _ _) as [p| |]; cbn [bind conv_res]; auto.
  rewrite conv_in. destruct (pos_in h p) as [pos|]; [|reflexivity]. change (g_h_heap (conv h)) with (h_heap h).
  destruct (_ =? _).
  - rewrite conv_clear. destruct (heap_clear_pos _ _); reflexivity.
  - rewrite conv_swap. destruct (heap_swap _ _ _) as [h1| |]; cbn [bind conv_res]; auto.
    rewrite conv_clear. destruct (heap_clear_pos _ _) as [h2| |]; cbn [bind conv_res]; auto.
    rewrite conv_last, conv_value. destruct (value_at _ _) as [mv| |]; cbn [bind conv_res]; auto.
    change (g_h_values (conv (heap_pop_last h2))) with (h_values (heap_pop_last h2)).
    destruct (vget _ _) as [rv| |]; cbn [bind conv_res]; auto. unfold Ngt. destruct (rv <? mv)%N; [apply conv_move_leaves|apply conv_move_root].
Qed.
Lemma conv_enqueue h i : g_enqueue N.ltb (conv h) i = conv_res (enqueue h i).
Proof.
  unfold g_enqueue, enqueue. change (g_h_pos (conv h)) with (h_pos h). destruct (vget _ _) as [p| |]; cbn [bind conv_res]; auto.
  rewrite conv_in. destruct (pos_in h p) as [pos|]; [reflexivity|].
  destruct (vset _ _ _) as [ps| |]; cbn [bind conv_res]; auto. apply (conv_move_root (mkHeap (h_values h) ps (h_heap h ++ [i]))).
Qed.
Lemma conv_fold (op : heap -> nat -> res heap) (gop : g_heap -> nat -> res g_heap) ks : (forall h i, gop (conv h) i = conv_res (op h i)) -> forall h, foldM gop ks (conv h) = conv_res (foldM op ks h).
Proof. intro Q. induction ks as [|k ks IH]; intro h; cbn [foldM]; [reflexivity|]. rewrite Q. destruct (op h k); cbn [bind conv_res]; auto. Qed.
Lemma conv_resize h n v : g_heap_resize N.ltb Ngt (conv h) n v = conv_res (heap_resize h n v).
Proof.
  unfold g_heap_resize, heap_resize. destruct (N.of_nat n <=? 4294967296)%N; [|reflexivity].
  change (g_h_values (conv h)) with (h_values h). destruct (n <? length (h_values h)).
  - rewrite (conv_fold dequeue) by apply conv_dequeue. destruct (foldM dequeue _ h); reflexivity.
  - reflexivity.
Qed.

(** For natural numbers with their order the definitions are those of [Model_Heap]. *)
Theorem heap_instance (h : heap) :
  conv heap_empty = g_heap_empty /\
  (forall i, g_is_enqueued (conv h) i = is_enqueued h i) /\
  (forall i, g_heap_value (conv h) i = heap_value h i) /\
  (forall n v, g_heap_resize N.ltb Ngt (conv h) n v = conv_res (heap_resize h n v)) /\
  (forall n v, g_heap_resize_enqueued N.ltb Ngt (conv h) n v = conv_res (heap_resize_enqueued h n v)) /\
  (forall i, g_enqueue N.ltb (conv h) i = conv_res (enqueue h i)) /\
  (forall i, g_dequeue N.ltb Ngt (conv h) i = conv_res (dequeue h i)) /\
  (forall i f, g_increase N.ltb (conv h) i f = conv_res (increase h i f)) /\
  (forall f, g_apply_monotone (conv h) f = conv (apply_monotone h f)) /\
  g_pop_max N.ltb (conv h) = conv_pop (pop_max h).
Proof.
  split; [reflexivity|]. split; [reflexivity|]. split; [reflexivity|]. split; [intros; apply conv_resize|].
  split; [|split; [intros; apply conv_enqueue|split; [intros; apply conv_dequeue|split; [|split; [reflexivity|]]]]].
  - intros n v. unfold g_heap_resize_enqueued, heap_resize_enqueued. rewrite conv_resize.
    destruct (heap_resize h n v) as [h1| |]; cbn [bind conv_res]; auto. change (g_heap_len (conv h)) with (heap_len h).
    apply conv_fold. apply conv_enqueue.
  - intros i f. unfold g_increase, increase. change (g_h_values (conv h)) with (h_values h).
    destruct (vget (h_values h) i) as [v| |]; cbn [bind conv_res]; auto. destruct (vset _ _ _) as [vs| |]; cbn [bind conv_res]; auto.
    change (g_h_pos (conv h)) with (h_pos h). change (g_h_heap (conv h)) with (h_heap h).
    change (g_mkHeap vs (h_pos h) (h_heap h)) with (conv (mkHeap vs (h_pos h) (h_heap h))). cbn [g_h_pos h_pos conv].
    destruct (vget _ _) as [p| |]; cbn [bind conv_res]; auto.
    change (g_mkHeap vs (h_pos h) (h_heap h)) with (conv (mkHeap vs (h_pos h) (h_heap h))).
    change (g_mkHeap (h_values (mkHeap vs (h_pos h) (h_heap h))) (h_pos (mkHeap vs (h_pos h) (h_heap h))) (h_heap (mkHeap vs (h_pos h) (h_heap h)))) with (conv (mkHeap vs (h_pos h) (h_heap h))).
    rewrite conv_in. destruct (pos_in _ p); [apply conv_move_root|reflexivity].
  - unfold g_pop_max, pop_max. change (g_h_heap (conv h)) with (h_heap h). destruct (h_heap h) as [|i r] eqn:Eh; [reflexivity|].
    destruct (_ =? _).
    + rewrite conv_clear. destruct (heap_clear_pos _ _); reflexivity.
    + rewrite conv_swap. destruct (heap_swap _ _ _) as [h1| |]; cbn [bind conv_res]; auto.
      rewrite conv_clear. destruct (heap_clear_pos _ _) as [h2| |]; cbn [bind conv_res]; auto.
      rewrite conv_last, conv_move_leaves. destruct (move_towards_leaves _ _); reflexivity.
Qed.

(** ** Examples *)
(** A comparison by which every value is less than every value, and functions that
    decrease values. *)
Definition always (a b : N) : bool := true.
Example any_heap_total_example : exists h M,
  any_hist always always false h [7; 3; 2; 7]%N M /\ M 1 = false /\ M 0 && M 3 = true /\
  exists i h', g_pop_max always h = Ret (Some i, h') /\ M i = true.
Proof.
  do 2 eexists. split; [|split; [|split]].
  - eapply (any_dequeue _ _ _ _ _ _ 1); [reflexivity|
      eapply (any_increase _ _ _ _ [7; 7; 2; 7]%N _ 1 7%N (fun _ => 3%N)); [
      eapply (any_increase _ _ _ _ [7; 7; 7; 7]%N _ 2 7%N (fun _ => 2%N)); [
      eapply (any_resize_enqueued _ _ _ g_heap_empty [] _ 4 7%N); [apply any_new| | | ] | | | ] | | | ] | | ];
      try (vm_compute; reflexivity); try (vm_compute; intro G; discriminate G); simpl; lia.
  - reflexivity.
  - reflexivity.
  - do 2 eexists. split; vm_compute; reflexivity.
Qed.

(** Pairs that are compared by their first component only. *)
Definition first_lt (a b : N * N) : bool := (fst a <? fst b)%N.
Example any_heap_max_example : lawful first_lt /\ exists h M,
  any_hist first_lt first_lt true h [(1, 0); (5, 1); (1, 0)]%N M /\ exists h', g_pop_max first_lt h = Ret (Some 1, h').
Proof.
  split.
  - split; unfold first_lt; [intros a b A|intros a b c A B]; [apply N.ltb_lt in A|apply N.ltb_ge in A; apply N.ltb_ge in B]; apply N.ltb_ge; lia.
  - do 2 eexists. split.
    + eapply (any_increase _ _ _ _ [(1, 0); (1, 0); (1, 0)]%N _ 1 (1, 0)%N (fun _ => (5, 1))%N); [
      eapply (any_resize_enqueued _ _ _ g_heap_empty [] _ 3 (1, 0)%N); [apply any_new| | | ] | | | ];
      try (vm_compute; reflexivity); try (vm_compute; intro G; discriminate G); simpl; lia.
    + eexists. vm_compute. reflexivity.
Qed.

Print Assumptions any_heap_exact.
Print Assumptions any_heap_total.
Print Assumptions any_heap_max_partial.
Print Assumptions heap_instance.
