(** C33, C34: the addressable heap. *)
From Coq Require Import NArith List Bool Arith Lia.
From Verif Require Import Model_Base Model_Heap Spec Drivers_Heap Proof_Base Proof_Heap.
Import ListNotations.

(** C34: in every history, including [dequeue] and shrinking, membership and
    values are exactly those of the abstract state; other indices are out of
    bounds. *)
Theorem heap_membership_exact (h : heap) (vals : list N) (M : nat -> bool) (i : nat) :
  hist true h vals M ->
  (i < length vals -> is_enqueued h i = Ret (M i) /\ heap_value h i = Ret (nth i vals 0%N)) /\
  (length vals <= i -> is_enqueued h i = Panic PBounds /\ M i = false).
Proof.
  intro H. apply hist_inv in H as (A & B & C & _). split; intro Hi.
  - subst vals. destruct (is_enqueued_ok h i A Hi) as (b & -> & Hb). split.
    + f_equal. specialize (C i). destruct b, (M i); auto; [symmetry|]; tauto.
    + unfold heap_value. apply vget_nth. auto.
  - split.
    + unfold is_enqueued, vget. rewrite (proj2 (nth_error_None _ _)); [reflexivity|].
      rewrite (hs_len h A), B. exact Hi.
    + destruct (M i) eqn:E; auto. apply C, (hs_in_lt h i A) in E. rewrite B in E. lia.
Qed.

(** No call within the contract panics, and [pop_max] returns an enqueued index
    unless nothing is enqueued. *)
Theorem heap_no_panic (h : heap) (vals : list N) (M : nat -> bool) :
  hist true h vals M ->
  (forall n v, (N.of_nat n <= 4294967296)%N -> exists h', heap_resize h n v = Ret h') /\
  (forall n v, (N.of_nat n <= 4294967296)%N -> exists h', heap_resize_enqueued h n v = Ret h') /\
  (forall i, i < length vals -> exists h', enqueue h i = Ret h') /\
  (forall i, i < length vals -> exists h', dequeue h i = Ret h') /\
  (forall i f, i < length vals -> exists h', increase h i f = Ret h') /\
  exists o h', pop_max h = Ret (o, h') /\
    match o with
    | Some i => M i = true
    | None => forall i, M i = false
    end.
Proof.
  intro H. apply hist_inv in H as (A & B & C & _). subst vals.
  split; [intros n v Hn; destruct (heap_resize_ok h n v A Hn) as (h' & E & _); eauto|].
  split; [intros n v Hn; destruct (heap_resize_enqueued_ok h n v A Hn) as (h' & E & _); eauto|].
  split; [intros i Hi; destruct (enqueue_ok h i A Hi) as (h' & E & _); eauto|].
  split; [intros i Hi; destruct (dequeue_ok h i A Hi) as (h' & E & _); eauto|].
  split; [intros i f Hi; destruct (increase_ok h i f A Hi) as (h' & E & _); eauto|].
  pose proof (pop_max_ok h A) as P. destruct (h_heap h) as [|k r] eqn:Eh.
  - exists None, h. split; auto. intro i. destruct (M i) eqn:E; auto. apply C in E. contradiction.
  - destruct P as (h' & E & _). exists (Some k), h'. split; auto. apply C. left; auto.
Qed.

(** C33, for histories without [dequeue] and without shrinking (the solver makes
    only such calls): [pop_max] returns an enqueued index of maximal value,
    [None] only if nothing is enqueued.  What is missing is [dequeue]; see
    [pop_max_maximum_refuted]. *)
Theorem pop_max_maximum_partial (h : heap) (vals : list N) (M : nat -> bool) :
  hist false h vals M ->
  exists o h', pop_max h = Ret (o, h') /\
    match o with
    | Some i => M i = true /\ forall j, M j = true -> (nth j vals 0 <= nth i vals 0)%N
    | None => forall j, M j = false
    end.
Proof.
  intro H. apply hist_inv in H as (A & B & C & D). subst vals.
  pose proof (pop_max_ok h A) as P. destruct (h_heap h) as [|k r] eqn:Eh.
  - exists None, h. split; auto. intro i. destruct (M i) eqn:E; auto. apply C in E. contradiction.
  - destruct P as (h' & E & _ & Ho). exists (Some k), h'. split; auto. split.
    + apply C. left; auto.
    + intros j Hj. apply (Ho (D eq_refl)). apply C. exact Hj.
Qed.

Example hist_ex : exists h h1 h2 h3 h4 M,
  heap_resize_enqueued heap_empty 4 5 = Ret h /\
  increase h 2 (fun v => v + 3)%N = Ret h1 /\ increase h1 1 (fun v => v + 7)%N = Ret h2 /\
  pop_max h2 = Ret (Some 1, h3) /\ pop_max h3 = Ret (Some 2, h4) /\
  hist false h4 [5; 12; 8; 5]%N M /\ M 0 = true /\ M 3 = true /\ M 1 = false /\ M 2 = false.
Proof.
  do 6 eexists. do 5 (split; [vm_compute; reflexivity|]). split.
  { eapply hist_pop; [eapply hist_pop; [
      eapply (hist_increase _ _ [5;5;8;5]%N _ 1 (fun v => v + 7)%N); [
      eapply (hist_increase _ _ [5;5;5;5]%N _ 2 (fun v => v + 3)%N); [
      eapply (hist_resize_enqueued _ heap_empty [] _ 4 5%N) | | | ] | | | ] | ] | ];
    try (vm_compute; reflexivity); try (vm_compute; intro G; discriminate G); try (simpl; lia).
    apply hist_new. }
  vm_compute. auto.
Qed.

(** C33 fails as soon as [dequeue] is used (heap.rs 117 compares the wrong way
    round): values 10, 9, 7 at the indices 0, 1, 2, all enqueued; after
    dequeueing index 0, [pop_max] returns index 2. *)
Theorem pop_max_maximum_refuted : exists h vals M i h',
  hist true h vals M /\ pop_max h = Ret (Some i, h') /\
  exists j, M j = true /\ (nth i vals 0 < nth j vals 0)%N.
Proof.
  do 5 eexists. split; [|split].
  - eapply (hist_dequeue true _ [10; 9; 7]%N _ 0); [reflexivity| | | ].
    + eapply (hist_increase _ _ [10; 9; 0]%N _ 2 (fun v => v + 7)%N); [
      eapply (hist_increase _ _ [10; 0; 0]%N _ 1 (fun v => v + 9)%N); [
      eapply (hist_increase _ _ [0; 0; 0]%N _ 0 (fun v => v + 10)%N); [
      eapply (hist_resize_enqueued _ heap_empty [] _ 3 0%N); [apply hist_new| | | ] | | | ] | | | ] | | | ];
      try (vm_compute; reflexivity); try (vm_compute; intro G; discriminate G); simpl; lia.
    + simpl; lia.
    + vm_compute. reflexivity.
  - vm_compute. reflexivity.
  - exists 1. split; vm_compute; reflexivity.
Qed.

Print Assumptions heap_membership_exact.
Print Assumptions heap_no_panic.
Print Assumptions pop_max_maximum_partial.
Print Assumptions pop_max_maximum_refuted.
