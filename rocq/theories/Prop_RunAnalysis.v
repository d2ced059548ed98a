(** C96: the work of conflict analysis, and of conflict analysis and unit propagation
    together, in a whole run. *)
From Coq Require Import NArith List Bool Arith Lia Permutation ZifyN ZifyNat ZifyBool.
From Verif Require Import Model_Base Model_Lit Model_PartialAssignment Model_Header Model_Arena Model_Prop
  Model_Heap Model_Vsids Model_Analysis Model_Luby Model_Solver Model_Cost Model_Work Model_RunWork Model_RunAnalysis Spec Drivers_Arena Proof_Base
  Proof_Inv Proof_Propagate Proof_Solver Proof_Search Proof_Solve Proof_Add
  Drivers_Solver Drivers_Search Proof_Main Proof_Select Proof_Cost Proof_RunWork Proof_RunAnalysis Examples_Solver Prop_GcCost Prop_Memory Prop_RunWork.
Import ListNotations.

(** ** Specification *)
(** [reach] with the work done by conflict analysis so far: one unit for every step of
    the trail scanned, every literal of the conflict clause and of the reasons looked at
    while the clause is derived and in every pass over them, every literal looked at and
    every mark set or removed in the minimization, every assignment undone, and every
    literal of the learned clause in each of the four passes over it *)
Inductive analysis_reach (select : selection) (dbg : bool) : nat -> list (list N) -> solver -> Prop :=
| ar_built F s : built dbg F s -> analysis_reach select dbg 0 F s
| ar_step w F s r cx st k : analysis_reach select dbg w F s ->
    schedule_search_step_a select dbg (so_ctx s) (so_state s) = Ret ((r, cx, st), k) ->
    analysis_reach select dbg (w + k) F (mkSolver cx st)
| ar_close_proof w F s : analysis_reach select dbg w F s -> analysis_reach select dbg w F (solver_close_proof s)
| ar_add w F s c s' : analysis_reach select dbg w F s -> valid_clause c -> watchable s c ->
    solver_add_clause dbg s c = Ret s' -> analysis_reach select dbg w (F ++ [c]) s'.
(** A run without late clauses, with the work of propagation and of conflict analysis *)
Inductive both_reach (select : selection) (dbg : bool) : nat -> list (list N) -> solver -> Prop :=
| br_built F s : built dbg F s -> both_reach select dbg 0 F s
| br_step w F s r cx st k1 k2 : both_reach select dbg w F s ->
    schedule_search_step_n select dbg (so_ctx s) (so_state s) = Ret ((r, cx, st), k1) ->
    schedule_search_step_a select dbg (so_ctx s) (so_state s) = Ret ((r, cx, st), k2) ->
    both_reach select dbg (w + k1 + k2) F (mkSolver cx st).

(** ** The counter does not change results *)
Theorem counted_analysis select dbg F s :
  reach select dbg F s <-> exists w, analysis_reach select dbg w F s.
Proof.
  split.
  - induction 1 as [F s H|F s r cx st H (w & IH) E|F s H (w & IH)|F s c s' H (w & IH) Hc Hw E].
    + exists 0. now apply ar_built.
    + rewrite <- er_schedule_a in E. apply erased in E as [k E]. eexists. eapply ar_step; eauto.
    + exists w. now apply ar_close_proof.
    + exists w. eapply ar_add; eauto.
  - intros (w & H). induction H as [F s H|w F s r cx st k H IH E|w F s H IH|w F s c s' H IH Hc Hw E].
    + now apply reach_built. + eapply reach_step; eauto. rewrite <- er_schedule_a. apply erased. eauto.
    + now apply reach_close_proof. + eapply reach_add; eauto.
Qed.

(** ** C96 *)
Definition abound (F : list (list N)) (c : nat) : nat := 16 * lits F + 16 * cnf_vars F * c + 27 * cnf_vars F + 8.
Lemma abound_mono F F' c c' : lits F <= lits F' -> cnf_vars F <= cnf_vars F' -> c <= c' -> abound F c <= abound F' c'.
Proof. intros A B C. unfold abound. assert (cnf_vars F * c <= cnf_vars F' * c') by (apply Nat.mul_le_mono; auto). lia. Qed.
Lemma analysis_inv select dbg w F s : anysel select -> analysis_reach select dbg w F s -> nodup_start dbg F -> w <= conflicts s * abound F (conflicts s).
Proof.
  intros Hs. induction 1 as [F s H|w F s r cx st k H IH E|w F s H IH|w F s c s' H IH Hc Hw E]; intro D.
  - lia.
  - specialize (IH D). assert (R : reach select dbg F s) by (apply counted_analysis; eauto). apply counted_run in R as (w1 & a1 & R).
    destruct (RW_reach _ _ _ _ _ _ Hs R D) as (L & steps & es & RR). destruct (RW_schedule_a _ _ _ _ _ _ _ _ _ _ _ _ _ _ Hs RR E) as [B C].
    unfold conflicts in *. cbn [so_ctx]. fold (abound F (st_conflicts (cx_stats (so_ctx s)))) in B. set (c0 := st_conflicts (cx_stats (so_ctx s))) in *. set (c1 := st_conflicts (cx_stats cx)) in *.
    pose proof (abound_mono F F c0 c1 (le_n _) (le_n _) (proj1 C)) as M. set (B0 := abound F c0) in *. set (B1 := abound F c1) in *.
    replace (c1 * B1) with (c0 * B1 + (c1 - c0) * B1) by (rewrite <- Nat.mul_add_distr_r; f_equal; lia).
    pose proof (Nat.mul_le_mono_l _ _ c0 M). pose proof (Nat.mul_le_mono_l _ _ (c1 - c0) M). lia.
  - apply IH. exact D.
  - specialize (IH (watchable_units _ _ _ _ Hw D)). destruct (add_counters _ _ _ _ E) as [C _]. unfold counters in C. injection C as _ _ C1 _ _.
    unfold conflicts in *. rewrite C1. eapply Nat.le_trans; [exact IH|]. apply Nat.mul_le_mono_l. apply abound_mono; [rewrite lits_snoc; lia|rewrite cnf_vars_snoc; lia|auto].
Qed.
(** The work of all conflict analysis so far: for every conflict at most 16 units for
    every literal of the formula and for every variable and earlier conflict, and 27 for
    every variable. *)
Theorem analysis_work select dbg w F s n :
  select_ok (fun _ _ => True) select -> analysis_reach select dbg w F s -> dbg = true \/ distinct_units F -> vars_below F n ->
  w <= conflicts s * (16 * (literals F + n * conflicts s) + 27 * n + 8).
Proof.
  intros Hs HR D Hn. pose proof (analysis_inv _ _ _ _ _ Hs HR D) as B. eapply Nat.le_trans; [exact B|]. apply Nat.mul_le_mono_l.
  assert (V : cnf_vars F <= n) by (destruct (cnf_vars_wit F) as [->|(c & x & Hc & Hx & ->)]; [lia|specialize (Hn c x Hc Hx); lia]).
  unfold abound, literals, lits. set (c := conflicts s). pose proof (Nat.mul_le_mono_r _ _ c V). lia.
Qed.
Lemma both_split select dbg w F s : both_reach select dbg w F s -> exists w1 w2, w = w1 + w2 /\ work_reach select dbg w1 0 F s /\ analysis_reach select dbg w2 F s.
Proof.
  induction 1 as [F s H|w F s r cx st k1 k2 H (w1 & w2 & -> & I1 & I2) E1 E2].
  - exists 0, 0. split; [auto|]. split; [now apply wr_built|now apply ar_built].
  - exists (w1 + k1), (w2 + k2). split; [lia|]. split; [eapply wr_step; eauto|eapply ar_step; eauto].
Qed.
(** Propagation and conflict analysis together: quadratic in the number of conflicts,
    linear in the number of literals of the formula and in the number of variables. *)
Theorem run_quadratic select dbg w F s n :
  select_ok (fun _ _ => True) select -> both_reach select dbg w F s -> dbg = true \/ distinct_units F -> vars_below F n ->
  w <= 29 * (1 + conflicts s) * (1 + literals F + (n + 1) * (1 + conflicts s)).
Proof.
  intros Hs HR D Hn. apply both_split in HR as (w1 & w2 & -> & H1 & H2).
  pose proof (propagation_quadratic _ _ _ _ _ _ Hs H1 D Hn) as B1. pose proof (analysis_work _ _ _ _ _ _ Hs H2 D Hn) as B2.
  set (c := conflicts s) in *. set (l := literals F) in *.
  assert (X1 : 2 * (1 + c) * (n + 6 * l + 4 * (n + 1) * c) = (1 + c) * (2 * n + 12 * l + 8 * ((n + 1) * c))) by (rewrite (Nat.mul_comm 2 (1 + c)), <- !Nat.mul_assoc; f_equal; lia).
  assert (X2 : c * (16 * (l + n * c) + 27 * n + 8) <= (1 + c) * (16 * (l + n * c) + 27 * n + 8)) by (apply Nat.mul_le_mono_r; lia).
  assert (X3 : (1 + c) * (2 * n + 12 * l + 8 * ((n + 1) * c)) + (1 + c) * (16 * (l + n * c) + 27 * n + 8) <= (1 + c) * (29 * (1 + l + (n + 1) * (1 + c)))).
  { rewrite <- Nat.mul_add_distr_l. apply Nat.mul_le_mono_l. lia. }
  assert (X4 : 29 * (1 + c) * (1 + l + (n + 1) * (1 + c)) = (1 + c) * (29 * (1 + l + (n + 1) * (1 + c)))) by (rewrite (Nat.mul_comm 29 (1 + c)), <- Nat.mul_assoc; reflexivity).
  rewrite X4.
  lia.
Qed.
(** Every run has such a counter. *)
Theorem counted_both select dbg F s w : both_reach select dbg w F s -> forall r cx st,
  schedule_search_step select dbg (so_ctx s) (so_state s) = Ret (r, cx, st) -> exists k, both_reach select dbg (w + k) F (mkSolver cx st).
Proof.
  intros H r cx st E. pose proof E as E'. rewrite <- er_schedule_n in E. rewrite <- er_schedule_a in E'. apply erased in E as [k1 E]. apply erased in E' as [k2 E'].
  exists (k1 + k2). rewrite Nat.add_assoc. eapply br_step; eauto.
Qed.

(** ** Examples *)
Fixpoint analysis_steps (n w : nat) (s : solver) : option (nat * solver) :=
  match n with
  | O => Some (w, s)
  | S n' =>
      match schedule_search_step_a select_sort true (so_ctx s) (so_state s) with
      | Ret ((_, cx, st), k) => analysis_steps n' (w + k) (mkSolver cx st)
      | _ => None
      end
  end.
Lemma analysis_steps_reach F n : forall w s w' s', analysis_reach select_sort true w F s -> analysis_steps n w s = Some (w', s') -> analysis_reach select_sort true w' F s'.
Proof.
  induction n as [|n IH]; intros w s w' s' H E; cbn [analysis_steps] in E; [inversion E; subst; exact H|].
  destruct (schedule_search_step_a _ _ _ _) as [[[[r cx] st] k]| |] eqn:E1; try discriminate. eapply IH; [eapply ar_step; eauto|exact E].
Qed.
(** Six pigeons: 19 conflicts in 50 search steps take 3308 units of conflict analysis. *)
Example analysis_work_example : exists s, analysis_reach select_sort true 3308 php6 s /\ conflicts s = 19.
Proof.
  set (s0 := added true php6).
  assert (X : match analysis_steps 50 0 s0 with Some (w, s) => w = 3308 /\ conflicts s = 19 | None => False end) by (vm_compute; auto).
  destruct (analysis_steps 50 0 s0) as [[w s]|] eqn:E; [|contradiction]. destruct X as (-> & C). exists s.
  split; [eapply analysis_steps_reach; [|exact E]; apply ar_built; apply built_added; vm_compute; reflexivity|exact C].
Qed.
Fixpoint both_steps (n w : nat) (s : solver) : option (nat * solver) :=
  match n with
  | O => Some (w, s)
  | S n' =>
      match schedule_search_step_n select_sort true (so_ctx s) (so_state s), schedule_search_step_a select_sort true (so_ctx s) (so_state s) with
      | Ret ((_, cx, st), k1), Ret (_, k2) => both_steps n' (w + k1 + k2) (mkSolver cx st)
      | _, _ => None
      end
  end.
Lemma both_steps_reach F n : forall w s w' s', both_reach select_sort true w F s -> both_steps n w s = Some (w', s') -> both_reach select_sort true w' F s'.
Proof.
  induction n as [|n IH]; intros w s w' s' H E; cbn [both_steps] in E; [inversion E; subst; exact H|].
  destruct (schedule_search_step_n _ _ _ _) as [[[[r cx] st] k1]| |] eqn:E1; try discriminate. destruct (schedule_search_step_a _ _ _ _) as [[y k2]| |] eqn:E2; try discriminate.
  assert (Q : schedule_search_step select_sort true (so_ctx s) (so_state s) = Ret (r, cx, st)) by (rewrite <- er_schedule_n, E1; reflexivity).
  rewrite <- er_schedule_a, E2 in Q. cbn [erase bind] in Q. injection Q as Q. subst y. eapply IH; [eapply br_step; eauto|exact E].
Qed.
(** The same run with both counters: 1029 units of propagation and 3308 of analysis *)
Example run_quadratic_example : exists s, both_reach select_sort true 4337 php6 s /\ conflicts s = 19 /\ vars_below php6 30.
Proof.
  set (s0 := added true php6).
  assert (X : match both_steps 50 0 s0 with Some (w, s) => w = 4337 /\ conflicts s = 19 | None => False end) by (vm_compute; auto).
  destruct (both_steps 50 0 s0) as [[w s]|] eqn:E; [|contradiction]. destruct X as (-> & C). exists s.
  split; [eapply both_steps_reach; [|exact E]; apply br_built; apply built_added; vm_compute; reflexivity|]. split; [exact C|].
  destruct propagation_work_example as (_ & _ & _ & _ & _ & V). exact V.
Qed.

Print Assumptions counted_analysis.
Print Assumptions analysis_work.
Print Assumptions run_quadratic.
Print Assumptions counted_both.
