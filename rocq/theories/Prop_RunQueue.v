(** C97: the work of the priority queue of the decision heuristic in a whole run. *)
From Coq Require Import NArith List Bool Arith Lia Permutation ZifyN ZifyNat ZifyBool.
From Verif Require Import Model_Base Model_Lit Model_PartialAssignment Model_Header Model_Arena Model_Prop
  Model_Heap Model_Vsids Model_Analysis Model_Luby Model_Solver Model_Cost Model_Work Model_RunWork Model_RunQueue Spec Drivers_Arena Proof_Base Proof_Heap
  Proof_Backtrack Proof_Inv Proof_Propagate Proof_Solver Proof_Search Proof_Solve Proof_Add
  Drivers_Solver Drivers_Search Proof_Main Proof_Select Proof_Cost Proof_RunWork Proof_RunQueue Examples_Solver Prop_GcCost Prop_Memory Prop_RunWork.
Import ListNotations.

(** ** Specification *)
(** [reach] with the comparisons and exchanges made by the priority queue in the search
    steps so far *)
Inductive queue_reach (select : selection) (dbg : bool) : nat -> list (list N) -> solver -> Prop :=
| qr_built F s : built dbg F s -> queue_reach select dbg 0 F s
| qr_step w F s r cx st k : queue_reach select dbg w F s ->
    schedule_search_step_q select dbg (so_ctx s) (so_state s) = Ret ((r, cx, st), k) ->
    queue_reach select dbg (w + k) F (mkSolver cx st)
| qr_close_proof w F s : queue_reach select dbg w F s -> queue_reach select dbg w F (solver_close_proof s)
| qr_add w F s c s' : queue_reach select dbg w F s -> valid_clause c -> watchable s c ->
    solver_add_clause dbg s c = Ret s' -> queue_reach select dbg w (F ++ [c]) s'.

(** ** The counter does not change results *)
Theorem counted_queue select dbg F s :
  reach select dbg F s <-> exists w, queue_reach select dbg w F s.
Proof.
  split.
  - induction 1 as [F s H|F s r cx st H (w & IH) E|F s H (w & IH)|F s c s' H (w & IH) Hc Hw E].
    + exists 0. now apply qr_built.
    + rewrite <- er_schedule_q in E. apply erased in E as [k E]. eexists. eapply qr_step; eauto.
    + exists w. now apply qr_close_proof.
    + exists w. eapply qr_add; eauto.
  - intros (w & H). induction H as [F s H|w F s r cx st k H IH E|w F s H IH|w F s c s' H IH Hc Hw E].
    + now apply reach_built. + eapply reach_step; eauto. rewrite <- er_schedule_q. apply erased. eauto.
    + now apply reach_close_proof. + eapply reach_add; eauto.
Qed.

(** ** C97 *)
Lemma lg_mono a b : a <= b -> lg a <= lg b.
Proof. intro H. pose proof (Nat.log2_le_mono _ _ H). unfold lg. lia. Qed.
(** New variables: all of them enter the queue. *)
Lemma late_queue L L' x n q n' q' : L <= L' -> n <= n' -> q <= n -> q' + n <= q + n' -> q <= q' ->
  forall w, w + L * q <= (1 + x) * (n * L) -> w + L' * q' <= (1 + x) * (n' * L').
Proof.
  intros HL Hn Hq Hd Hq' w H.
  assert (A : w <= x * (n * L) + (n - q) * L).
  { replace (n * L) with ((n - q) * L + q * L) in H at 1 by (rewrite <- Nat.mul_add_distr_r; f_equal; lia).
    rewrite Nat.mul_add_distr_r, Nat.mul_1_l in H. rewrite (Nat.mul_comm L q) in H.
    replace (n * L) with ((n - q) * L + q * L) in * by (rewrite <- Nat.mul_add_distr_r; f_equal; lia). lia. }
  assert (B : x * (n * L) <= x * (n' * L')) by (apply Nat.mul_le_mono_l, Nat.mul_le_mono; auto).
  assert (C : (n - q) * L <= (n' - q') * L') by (apply Nat.mul_le_mono; lia).
  assert (D : q' <= n') by lia.
  replace (n' * L') with ((n' - q') * L' + q' * L') at 1 by (rewrite <- Nat.mul_add_distr_r; f_equal; lia).
  rewrite Nat.mul_add_distr_r, Nat.mul_1_l, (Nat.mul_comm L' q').
  replace (n' * L') with ((n' - q') * L' + q' * L') in * by (rewrite <- Nat.mul_add_distr_r; f_equal; lia). lia.
Qed.
Lemma enqueues_len l : forall h h', foldM enqueue l h = Ret h' -> length (h_heap h) <= length (h_heap h') <= length (h_heap h) + length l.
Proof.
  induction l as [|i l IH]; intros h h' E; cbn [foldM] in E; [inversion E; cbn; lia|]. apply bind_ret in E as (h1 & E1 & E). apply IH in E.
  apply Prop_HeapCost.counted_heap in E1 as (k & E1). apply enqueue_q in E1. cbn [length]. lia.
Qed.
Lemma resize_ql v m v' : length (h_values (vs_activity v)) <= m -> vsids_resize v m = Ret v' -> ql v <= ql v' <= ql v + (m - length (h_values (vs_activity v))).
Proof.
  intros Hm E. apply bind_ret in E as (h & E & E'). inversion E'; subst. unfold heap_resize_enqueued in E. apply bind_ret in E as (h1 & E1 & E). apply enqueues_len in E.
  unfold heap_resize in E1. destruct (_ <=? _)%N; [|discriminate]. destruct (Nat.ltb_spec m (length (h_values (vs_activity v)))); [lia|]. cbn [bind] in E1. inversion E1; subst.
  unfold ql. cbn [vs_activity h_heap] in *. rewrite seq_length in E. unfold heap_len in E. lia.
Qed.
Lemma add_ql dbg s c s' n : length (h_values (vs_activity (se_vsids (sta_search (so_state s))))) = n -> st_vars (cx_stats (so_ctx s)) = n -> solver_add_clause dbg s c = Ret s' ->
  ql (se_vsids (sta_search (so_state s))) <= ql (se_vsids (sta_search (so_state s'))) <= ql (se_vsids (sta_search (so_state s))) + (Nat.max n (clause_var_count c) - n).
Proof.
  intros Hv Hn E. unfold solver_add_clause in E. cbv zeta in E. apply bind_ret in E as ([cx1 se1] & E1 & E). apply bind_ret in E as ([[ad cx2] p2] & _ & E). injection E as <-. cbn [so_state sta_search se_vsids].
  destruct (Nat.ltb_spec (st_vars (cx_stats (so_ctx s))) (clause_var_count c)) as [L|L].
  - apply bind_ret in E1 as (se & E1 & E2). injection E2 as <- <-. apply bind_ret in E1 as (v & E1 & E3). injection E3 as <-. cbn [se_vsids]. apply resize_ql in E1; lia.
  - injection E1 as <- <-. lia.
Qed.
Lemma queue_inv select dbg w F s : anysel select -> queue_reach select dbg w F s -> nodup_start dbg F ->
  w + lg (cnf_vars F) * ql (se_vsids (sta_search (so_state s))) <= (1 + (4 * conflicts s + 2 * restarts s)) * (cnf_vars F * lg (cnf_vars F)).
Proof.
  intros Hs. induction 1 as [F s H|w F s r cx st k H IH E|w F s H IH|w F s c s' H IH Hc Hw E]; intro D.
  - assert (R : reach select dbg F s) by now apply reach_built. apply counted_run in R as (w1 & a1 & R).
    destruct (RW_reach _ _ _ _ _ _ Hs R D) as (L & steps & es & RR). pose proof (SI_ql _ _ _ _ _ _ _ _ (rw_si _ _ _ _ _ _ _ _ RR)) as Q.
    pose proof (Nat.mul_le_mono_r _ _ (lg (cnf_vars F)) Q) as M. rewrite Nat.mul_add_distr_r, Nat.mul_1_l. rewrite (Nat.mul_comm (lg _) (ql _)). lia.
  - specialize (IH D). assert (R : reach select dbg F s) by (apply counted_queue; eauto). apply counted_run in R as (w1 & a1 & R).
    destruct (RW_reach _ _ _ _ _ _ Hs R D) as (L & steps & es & RR). destruct (RW_schedule_q _ _ _ _ _ _ _ _ _ _ _ _ _ _ Hs RR E) as [B [C1 C2]].
    unfold conflicts, restarts, pay in *. cbn [so_ctx so_state]. set (X := cnf_vars F * lg (cnf_vars F)) in *.
    set (c0 := st_conflicts (cx_stats (so_ctx s))) in *. set (c1 := st_conflicts (cx_stats cx)) in *. set (r0 := st_restarts (cx_stats (so_ctx s))) in *. set (r1 := st_restarts (cx_stats cx)) in *.
    replace (1 + (4 * c1 + 2 * r1)) with (1 + (4 * c0 + 2 * r0) + (4 * (c1 - c0) + 2 * (r1 - r0))) by lia. rewrite (Nat.mul_add_distr_r (1 + (4 * c0 + 2 * r0))). lia.
  - apply IH. exact D.
  - pose proof (watchable_units _ _ _ _ Hw D) as D'. specialize (IH D'). destruct (add_counters _ _ _ _ E) as [C _]. unfold counters in C. injection C as _ _ C1 C2 _.
    assert (R : reach select dbg F s) by (apply counted_queue; eauto). apply counted_run in R as (w1 & a1 & R).
    destruct (RW_reach _ _ _ _ _ _ Hs R D') as (L & steps & es & RR). pose proof (rw_si _ _ _ _ _ _ _ _ RR) as HI. pose proof (SI_ql _ _ _ _ _ _ _ _ HI) as Q.
    pose proof (add_ql _ _ _ _ (cnf_vars F) (cb_len _ _ (s_cb _ _ _ _ _ _ _ _ HI)) (sti_vars _ _ _ _ _ (s_st _ _ _ _ _ _ _ _ HI)) E) as A.
    unfold conflicts, restarts in *. rewrite C1, C2. rewrite cnf_vars_snoc. eapply late_queue; [| |exact Q| | |exact IH]; [apply lg_mono| | |]; lia.
Qed.
(** All comparisons and exchanges of the priority queue: n log n for every conflict and
    every restart, up to a constant factor. *)
Theorem queue_work select dbg w F s n :
  select_ok (fun _ _ => True) select -> queue_reach select dbg w F s -> dbg = true \/ distinct_units F -> vars_below F n ->
  w <= (1 + 4 * conflicts s + 2 * restarts s) * (n * (3 * Nat.log2 n + 1)).
Proof.
  intros Hs HR D Hn. pose proof (queue_inv _ _ _ _ _ Hs HR D) as B.
  assert (V : cnf_vars F <= n) by (destruct (cnf_vars_wit F) as [->|(c & x & Hc & Hx & ->)]; [lia|specialize (Hn c x Hc Hx); lia]).
  pose proof (Nat.mul_le_mono _ _ _ _ V (lg_mono _ _ V)) as M. apply (Nat.mul_le_mono_l _ _ (1 + (4 * conflicts s + 2 * restarts s))) in M. unfold lg in *. rewrite Nat.add_assoc in *. lia.
Qed.
(** In terms of the conflicts alone *)
Theorem queue_conflicts select dbg w F s n :
  select_ok (fun _ _ => True) select -> queue_reach select dbg w F s -> dbg = true \/ distinct_units F -> vars_below F n ->
  w <= (3 + 5 * conflicts s) * (n * (3 * Nat.log2 n + 1)).
Proof.
  intros Hs HR D Hn. eapply Nat.le_trans; [eapply queue_work; eauto|]. apply Nat.mul_le_mono_r.
  assert (R : reach select dbg F s) by (apply counted_queue; eauto). pose proof (restarts_bounded _ _ _ _ Hs R). lia.
Qed.

(** ** Examples *)
Fixpoint queue_steps (n w : nat) (s : solver) : option (nat * solver) :=
  match n with
  | O => Some (w, s)
  | S n' =>
      match schedule_search_step_q select_sort true (so_ctx s) (so_state s) with
      | Ret ((_, cx, st), k) => queue_steps n' (w + k) (mkSolver cx st)
      | _ => None
      end
  end.
Lemma queue_steps_reach F n : forall w s w' s', queue_reach select_sort true w F s -> queue_steps n w s = Some (w', s') -> queue_reach select_sort true w' F s'.
Proof.
  induction n as [|n IH]; intros w s w' s' H E; cbn [queue_steps] in E; [inversion E; subst; exact H|].
  destruct (schedule_search_step_q _ _ _ _) as [[[[r cx] st] k]| |] eqn:E1; try discriminate. eapply IH; [eapply qr_step; eauto|exact E].
Qed.
(** Six pigeons: 50 search steps with 19 conflicts and a restart make 1034 comparisons and
    exchanges. *)
Example queue_work_example : exists s, queue_reach select_sort true 1034 php6 s /\ conflicts s = 19 /\ restarts s = 1 /\ vars_below php6 30.
Proof.
  set (s0 := added true php6).
  assert (X : match queue_steps 50 0 s0 with Some (w, s) => w = 1034 /\ conflicts s = 19 /\ restarts s = 1 | None => False end) by (vm_compute; auto).
  destruct (queue_steps 50 0 s0) as [[w s]|] eqn:E; [|contradiction]. destruct X as (-> & C & R). exists s.
  split; [eapply queue_steps_reach; [|exact E]; apply qr_built; apply built_added; vm_compute; reflexivity|]. split; [exact C|]. split; [exact R|].
  destruct propagation_work_example as (_ & _ & _ & _ & _ & V). exact V.
Qed.

Print Assumptions counted_queue.
Print Assumptions queue_work.
Print Assumptions queue_conflicts.
