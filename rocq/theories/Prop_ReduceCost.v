(** C98: the work of clause database reductions in a whole run. *)
From Coq Require Import NArith List Bool Arith Lia Permutation ZifyN ZifyNat ZifyBool.
From Verif Require Import Model_Base Model_Lit Model_PartialAssignment Model_Header Model_Arena Model_Prop
  Model_Heap Model_Vsids Model_Analysis Model_Luby Model_Solver Model_Cost Model_GcCost Model_ReduceCost Spec Drivers_Arena Proof_Base Proof_Luby
  Proof_Inv Proof_Propagate Proof_Solver Proof_Search Proof_Solve Proof_Add Proof_Sched
  Drivers_Solver Drivers_Search Proof_Main Proof_Select Proof_Visited Proof_Cost Proof_Tables Prop_Width Proof_Size Proof_GcCost Proof_ReduceCost Examples_Solver Prop_GcCost Prop_Memory Prop_Sched.
Import ListNotations.

(** ** Specification *)
(** [reach] with the work done by reductions so far (one unit for every assignment
    visited, every word and every clause of the clause memory looked at, every candidate
    for deletion, every clause deleted and every literal of its line in the proof) *)
Inductive reduce_reach (select : selection) (dbg : bool) : nat -> list (list N) -> solver -> Prop :=
| rr_built F s : built dbg F s -> reduce_reach select dbg 0 F s
| rr_step w F s r cx st k : reduce_reach select dbg w F s ->
    schedule_search_step_r select dbg (so_ctx s) (so_state s) = Ret ((r, cx, st), k) ->
    reduce_reach select dbg (w + k) F (mkSolver cx st)
| rr_close_proof w F s : reduce_reach select dbg w F s -> reduce_reach select dbg w F (solver_close_proof s)
| rr_add w F s c s' : reduce_reach select dbg w F s -> valid_clause c -> watchable s c ->
    solver_add_clause dbg s c = Ret s' -> reduce_reach select dbg w (F ++ [c]) s'.
(** The number of reductions so far *)
Definition reductions (s : solver) : nat := st_reductions (cx_stats (so_ctx s)).

(** ** The counter does not change results *)
Theorem counted_reductions select dbg F s :
  reach select dbg F s <-> exists w, reduce_reach select dbg w F s.
Proof.
  split.
  - induction 1 as [F s H|F s r cx st H (w & IH) E|F s H (w & IH)|F s c s' H (w & IH) Hc Hw E].
    + exists 0. now apply rr_built.
    + rewrite <- er_schedule_r in E. apply erased in E as [k E]. eexists. eapply rr_step; eauto.
    + exists w. now apply rr_close_proof.
    + exists w. eapply rr_add; eauto.
  - intros (w & H). induction H as [F s H|w F s r cx st k H IH E|w F s H IH|w F s c s' H IH Hc Hw E].
    + now apply reach_built. + eapply reach_step; eauto. rewrite <- er_schedule_r. apply erased. eauto.
    + now apply reach_close_proof. + eapply reach_add; eauto.
Qed.

(** ** The whole run *)
(** What the clauses stored so far need at most *)
Definition stored (F : list (list N)) (c : nat) : nat := long_words F + c * (cnf_vars F + unit_clauses F + 3).
Definition once (F : list (list N)) (c : nat) : nat := 2 * (cnf_vars F + unit_clauses F) + 3 * stored F c + 2.
Lemma stored_mono F c c' : c <= c' -> stored F c <= stored F c'.
Proof. intro H. unfold stored. apply Nat.add_le_mono_l, Nat.mul_le_mono_r. exact H. Qed.
Lemma stored_snoc F x c : stored F c + (if Nat.leb 3 (length x) then 3 + length x else 0) <= stored (F ++ [x]) c /\ once F c <= once (F ++ [x]) c.
Proof.
  pose proof (vars_mono F x) as M. unfold once, stored. rewrite long_words_snoc. set (q := if Nat.leb 3 (length x) then 3 + length x else 0).
  set (m := cnf_vars F + unit_clauses F) in *. set (m' := cnf_vars (F ++ [x]) + unit_clauses (F ++ [x])) in *. clearbody m m' q.
  assert (c * (m + 3) <= c * (m' + 3)) by (apply Nat.mul_le_mono_l; lia). lia.
Qed.
Lemma step_work select dbg F s r cx st k : anysel select -> reach select dbg F s ->
  schedule_search_step_r select dbg (so_ctx s) (so_state s) = Ret ((r, cx, st), k) ->
  let t := cx_stats (so_ctx s) in let t' := cx_stats cx in let m := cnf_vars F + unit_clauses F in
  memory_words (mkSolver cx st) + st_conflicts t * (m + 3) <= memory_words s + st_conflicts t' * (m + 3) /\ st_conflicts t <= st_conflicts t' /\
  (st_reductions t' = st_reductions t /\ k = 0 \/ st_reductions t' = S (st_reductions t) /\ k <= 2 * m + 3 * memory_words s + 2).
Proof.
  intros Hs HR E t t' m. pose proof (vis_solver _ _ _ _ HR) as HV. unfold schedule_search_step_r in E. destruct (should_restart _ _) as [dr sc1].
  apply bindC_ret in E as ([cx1 se1] & k1 & k2 & E1 & E & ->). apply units_ret in E1 as [E1 ->].
  assert (Q1 : visited select dbg F cx1 se1 /\ awords (p_long (se_prop se1)) = memory_words s /\ st_conflicts (cx_stats cx1) = st_conflicts t /\ st_reductions (cx_stats cx1) = st_reductions t).
  { destruct dr; [|inversion E1; subst; repeat split; auto]. split; [eapply vis_restart; eauto|]. split; [erewrite restart_size by eauto; reflexivity|].
    unfold restart in E1. destruct (Nat.ltb 0 _); [destruct (backtrack_to_level _ _ _ _) as [[? ?]| |]; cbn [bind] in E1; try discriminate|]; inversion E1; subst; cbn; auto. }
  destruct Q1 as (V1 & P1 & C1 & R1). destruct (should_reduce _ _) as [dd sc2].
  apply bindC_ret in E as ([cx2 se2] & k3 & k4 & E2 & E & ->).
  apply bindC_ret in E as ([[r3 cx3] se3] & k5 & k6 & E3 & E & ->). apply units_ret in E3 as [E3 ->]. inversion E; subst. clear E.
  assert (Q2 : visited select dbg F cx2 se2 /\ awords (p_long (se_prop se2)) = memory_words s /\ st_conflicts (cx_stats cx2) = st_conflicts t /\
    (st_reductions (cx_stats cx2) = st_reductions t /\ k3 = 0 \/ st_reductions (cx_stats cx2) = S (st_reductions t) /\ k3 <= 2 * m + 3 * memory_words s + 2)).
  { destruct dd; [|inversion E2; subst; auto 6]. apply bindC_ret in E2 as ([cx4 se4] & k7 & k8 & E5 & E2 & ->). apply bindC_ret in E2 as (u & k9 & k10 & E6 & E2 & ->).
    apply units_ret in E6 as [E6 ->]. inversion E2; subst. pose proof (reduce_cost _ _ _ _ _ _ _ _ Hs V1 E5) as K. rewrite P1 in K.
    assert (ER : reduce select cx1 se1 = Ret (cx2, se2)) by (rewrite <- er_reduce, E5; reflexivity).
    split; [eapply vis_reduce; eauto|]. split; [rewrite (reduce_size _ _ _ _ _ ER); exact P1|]. destruct (reduce_counts _ _ _ _ _ ER) as [X1 X2]. split; [lia|]. right.
    split; [lia|]. pose proof (proj1 (trail_length _ _ _ _ _ Hs V1)) as B. fold m in B. lia. }
  destruct Q2 as (V2 & P2 & C2 & K2). destruct (step_words _ _ _ _ _ _ _ _ Hs V2 E3) as (A1 & A2 & A3). fold m in A1. unfold memory_words at 1. cbn [so_state sta_search].
  fold (awords (p_long (se_prop se3))). unfold t'. rewrite P2, C2 in A1. rewrite A2. split; [lia|]. split; [lia|]. destruct K2 as [[K2 ->]|[K2 K3]]; [left; lia|right; lia].
Qed.
Lemma run_inv select dbg w F s : anysel select -> reduce_reach select dbg w F s ->
  memory_words s <= stored F (conflicts s) /\ w <= reductions s * once F (conflicts s).
Proof.
  intros Hs H. induction H as [F s H|w F s r cx st k H IH E|w F s H IH|w F s c s' H IH Hc Hw E].
  - split; [|lia]. induction H as [|F s c s' HB IH Hc E|F s HB IH|F s HB IH]; auto; try (cbn; lia).
    apply solver_add_words in E as (A1 & _ & A3 & _). destruct (stored_snoc F c (conflicts s)) as [S1 _]. unfold conflicts, memory_words in *. unfold awords in A1. rewrite A3. lia.
  - assert (HR : reach select dbg F s) by (apply counted_reductions; eauto). destruct (step_work _ _ _ _ _ _ _ _ Hs HR E) as (A1 & A2 & A3). destruct IH as [I1 I2].
    unfold conflicts, reductions in *. cbn [so_ctx]. set (c := st_conflicts (cx_stats (so_ctx s))) in *. set (c' := st_conflicts (cx_stats cx)) in *.
    assert (O : once F c <= once F c') by (pose proof (stored_mono F c c' A2); unfold once; lia).
    split; [unfold stored in *; lia|]. destruct A3 as [[-> ->]|[-> K]].
    + rewrite Nat.add_0_r. eapply Nat.le_trans; [exact I2|]. apply Nat.mul_le_mono_l. exact O.
    + assert (k <= once F c) by (unfold once; lia).
      apply (Nat.mul_le_mono_l _ _ (st_reductions (cx_stats (so_ctx s)))) in O. cbn [Nat.mul]. assert (once F c <= once F c') by (pose proof (stored_mono F c c' A2); unfold once; lia). lia.
  - exact IH.
  - destruct IH as [I1 I2]. apply solver_add_words in E as (A1 & _ & A3 & A4). destruct (stored_snoc F c (conflicts s)) as [S1 S2]. unfold conflicts, memory_words, reductions in *. unfold awords in A1. rewrite A3, A4. split; [lia|].
    eapply Nat.le_trans; [exact I2|]. apply Nat.mul_le_mono_l. exact S2.
Qed.

(** ** C98 *)
(** A reduction looks at every assignment twice and at every word of the clause memory at
    most three times, in every state the solver can be in. *)
Theorem reduction_once select dbg F cx se cx' se' k :
  select_ok (fun _ _ => True) select -> visited select dbg F cx se -> reduce_n select cx se = Ret ((cx', se'), k) ->
  k <= 2 * length (t_steps (p_trail (se_prop se))) + 3 * length (a_buffer (p_long (se_prop se))) + 2.
Proof. intros Hs HV E. exact (reduce_cost _ _ _ _ _ _ _ _ Hs HV E). Qed.
(** Each search step reduces at most once, and then looks at every assignment twice and at
    every word of the clause memory at most three times. *)
Theorem reduction_linear select dbg F s r cx st k :
  select_ok (fun _ _ => True) select -> reach select dbg F s ->
  schedule_search_step_r select dbg (so_ctx s) (so_state s) = Ret ((r, cx, st), k) ->
  st_reductions (cx_stats cx) = reductions s /\ k = 0 \/
  st_reductions (cx_stats cx) = S (reductions s) /\ k <= 2 * (cnf_vars F + unit_clauses F) + 3 * memory_words s + 2.
Proof. intros Hs HR E. apply (step_work _ _ _ _ _ _ _ _ Hs HR E). Qed.
(** The work of all reductions is at most one such pass for each. *)
Theorem reduction_work select dbg w F s :
  select_ok (fun _ _ => True) select -> reduce_reach select dbg w F s ->
  let m := cnf_vars F + unit_clauses F in
  w <= reductions s * (2 * m + 3 * (long_words F + conflicts s * (m + 3)) + 2).
Proof. intros Hs HR m. exact (proj2 (run_inv _ _ _ _ _ Hs HR)). Qed.
(** The reductions are as rare as the schedule says. *)
Theorem reductions_bounded select dbg F s k :
  select_ok (fun _ _ => True) select -> reach select dbg F s -> reductions s = S k -> (N.of_nat k <= 2 ^ 28)%N ->
  (reduce_due k <= N.of_nat (conflicts s))%N /\ 2000 * k <= conflicts s.
Proof.
  intros Hs HR Hk Hb.
  assert (Q : match reductions s with O => True | S k => (red_sum k <= N.of_nat (conflicts s))%N end).
  { clear k Hk Hb. induction HR as [F s H|F s r cx st HR IH E|F s HR IH|F s c s' HR IH Hc Hw E]; auto.
    - destruct (built_counters _ _ _ H) as [C _]. unfold counters in C. unfold reductions. injection C as _ _ _ _ C. rewrite C. exact I.
    - assert (M : confs (so_ctx s) <= confs cx).
      { pose proof E as E'. rewrite <- er_schedule_r in E'. apply erased in E' as [k E']. apply (step_work _ _ _ _ _ _ _ _ Hs HR E'). }
      destruct (RSI_reach _ _ _ _ HR) as [_ A]. apply sched_reduce in E. unfold reductions, conflicts in *. cbn [so_ctx]. unfold reds, confs in *. rewrite A in E.
      destruct (N.leb_spec (red_sum (st_reductions (cx_stats (so_ctx s)))) (N.of_nat (st_conflicts (cx_stats (so_ctx s))))) as [G|G]; destruct E as (-> & _); [lia|].
      destruct (st_reductions _); [exact I|lia].
    - apply solver_add_words in E as (_ & _ & A3 & A4). unfold reductions, conflicts in *. rewrite A3, A4. exact IH. }
  rewrite Hk in Q. rewrite due_sum in Q by exact Hb. split; [exact Q|].
  assert (D : (2000 * N.of_nat k <= reduce_due k)%N); [|lia]. clear - k. induction k as [|k IH]; [reflexivity|]. cbn [reduce_due].
  assert (2000 <= N.sqrt (2000 * 2000 * N.of_nat (S k)))%N; [|lia]. apply N.sqrt_le_square. lia.
Qed.

(** So the work of all reductions is quadratic in the number of conflicts, with a small
    factor (for the first 2^28 reductions, that is for more than 5 * 10^15 conflicts). *)
Theorem reduction_quadratic select dbg w F s :
  select_ok (fun _ _ => True) select -> reduce_reach select dbg w F s -> (N.of_nat (reductions s) <= 2 ^ 28)%N ->
  let m := cnf_vars F + unit_clauses F in
  2000 * w <= (2000 + conflicts s) * (2 * m + 3 * (long_words F + conflicts s * (m + 3)) + 2).
Proof.
  intros Hs HR Hb m. assert (R : reach select dbg F s) by (apply counted_reductions; eauto). pose proof (reduction_work _ _ _ _ _ Hs HR) as W. cbv zeta in W. fold m in W.
  set (B := 2 * m + 3 * (long_words F + conflicts s * (m + 3)) + 2) in *. clearbody B.
  assert (Q : 2000 * reductions s <= 2000 + conflicts s).
  { destruct (reductions s) as [|k] eqn:Ek; [lia|]. destruct (reductions_bounded _ _ _ _ _ Hs R Ek ltac:(lia)) as [_ X]. lia. }
  apply (Nat.mul_le_mono_r _ _ B) in Q. rewrite <- Nat.mul_assoc in Q. lia.
Qed.

(** ** Examples *)
Fixpoint reduce_steps (n w : nat) (s : solver) : option (nat * solver) :=
  match n with
  | O => Some (w, s)
  | S n' =>
      match schedule_search_step_r select_sort true (so_ctx s) (so_state s) with
      | Ret ((_, cx, st), k) => reduce_steps n' (w + k) (mkSolver cx st)
      | _ => None
      end
  end.
Lemma reduce_steps_reach F n : forall w s w' s', reduce_reach select_sort true w F s -> reduce_steps n w s = Some (w', s') -> reduce_reach select_sort true w' F s'.
Proof.
  induction n as [|n IH]; intros w s w' s' H E; cbn [reduce_steps] in E; [inversion E; subst; exact H|].
  destruct (schedule_search_step_r _ _ _ _) as [[[[r cx] st] k]| |] eqn:E1; try discriminate. eapply IH; [eapply rr_step; eauto|exact E].
Qed.
(** Six pigeons: 50 search steps with 19 conflicts, the first of which reduced. *)
Example reduction_work_example : exists s, reduce_reach select_sort true 12 php6 s /\ conflicts s = 19 /\ reductions s = 1.
Proof.
  set (s0 := added true php6).
  assert (X : match reduce_steps 50 0 s0 with Some (w, s) => w = 12 /\ conflicts s = 19 /\ reductions s = 1 | None => False end) by (vm_compute; auto).
  destruct (reduce_steps 50 0 s0) as [[w s]|] eqn:E; [|contradiction]. destruct X as (-> & C & R). exists s.
  split; [eapply reduce_steps_reach; [|exact E]; apply rr_built; apply built_added; vm_compute; reflexivity|]. auto.
Qed.
(** A reduction after 90 steps deletes clauses of 14 words in 125 units; the trail has 11
    assignments and the clause memory 465 words. *)
Definition state90 : ctx * search := (so_ctx (after true 90 (added true php6)), sta_search (so_state (after true 90 (added true php6)))).
Example reduction_once_example : visited select_sort true php6 (fst state90) (snd state90) /\
  match reduce_n select_sort (fst state90) (snd state90) with
  | Ret ((cx, se), k) => k = 125 /\ a_garbage (p_long (se_prop (snd state90))) = 0 /\ a_garbage (p_long (se_prop se)) = 14 /\
      length (a_buffer (p_long (se_prop se))) = 465 /\ length (t_steps (p_trail (se_prop se))) = 11
  | _ => False
  end.
Proof.
  split; [apply vis_solver, reach_after; constructor; apply built_added; vm_compute; reflexivity|]. vm_compute. auto.
Qed.

Print Assumptions counted_reductions.
Print Assumptions reduction_once.
Print Assumptions reduction_linear.
Print Assumptions reduction_work.
Print Assumptions reductions_bounded.
Print Assumptions reduction_quadratic.
