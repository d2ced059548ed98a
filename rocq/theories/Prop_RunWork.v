(** C94: the work of unit propagation in a whole run. *)
From Coq Require Import NArith List Bool Arith Lia Permutation ZifyN ZifyNat ZifyBool.
From Verif Require Import Model_Base Model_Lit Model_PartialAssignment Model_Header Model_Arena Model_Prop
  Model_Heap Model_Vsids Model_Analysis Model_Luby Model_Solver Model_Cost Model_Work Model_RunWork Spec Drivers_Arena Proof_Base Proof_Luby
  Proof_Inv Proof_Propagate Proof_Solver Proof_Search Proof_Solve Proof_Add
  Drivers_Solver Drivers_Search Proof_Main Proof_Select Proof_Cost Proof_RunWork Examples_Solver Prop_GcCost Prop_Memory.
Import ListNotations.

(** ** Specification *)
(** The number of literals of a formula, counted with repetitions *)
Definition literals (F : list (list N)) : nat := list_sum (map (@length N) F).
(** All variables of the formula are below [n]. *)
Definition vars_below (F : list (list N)) (n : nat) : Prop := forall c x, In c F -> In x c -> vidx x < n.
(** [reach] with the work done by unit propagation so far (one unit for every binary
    clause and every watch visited, for every literal inspected in the search for a new
    literal to watch, and for every literal propagated) and the number of clauses added
    after the first [solve] *)
Inductive work_reach (select : selection) (dbg : bool) : nat -> nat -> list (list N) -> solver -> Prop :=
| wr_built F s : built dbg F s -> work_reach select dbg 0 0 F s
| wr_step w a F s r cx st k : work_reach select dbg w a F s ->
    schedule_search_step_n select dbg (so_ctx s) (so_state s) = Ret ((r, cx, st), k) ->
    work_reach select dbg (w + k) a F (mkSolver cx st)
| wr_close_proof w a F s : work_reach select dbg w a F s -> work_reach select dbg w a F (solver_close_proof s)
| wr_add w a F s c s' : work_reach select dbg w a F s -> valid_clause c -> watchable s c ->
    solver_add_clause dbg s c = Ret s' -> work_reach select dbg w (S a) (F ++ [c]) s'.

(** ** The counter does not change results *)
Theorem counted_run select dbg F s :
  reach select dbg F s <-> exists w a, work_reach select dbg w a F s.
Proof.
  split.
  - induction 1 as [F s H|F s r cx st H (w & z & IH) E|F s H (w & z & IH)|F s c s' H (w & z & IH) Hc Hw E].
    + exists 0, 0. now apply wr_built.
    + rewrite <- er_schedule_n in E. apply erased in E as [k E]. do 2 eexists. eapply wr_step; eauto.
    + exists w, z. now apply wr_close_proof.
    + exists w, (S z). eapply wr_add; eauto.
  - intros (w & z & H). induction H as [F s H|w z F s r cx st k H IH E|w z F s H IH|w z F s c s' H IH Hc Hw E].
    + now apply reach_built. + eapply reach_step; eauto. rewrite <- er_schedule_n. apply erased. eauto.
    + now apply reach_close_proof. + eapply reach_add; eauto.
Qed.

(** ** Restarts and conflicts *)
Lemma luby_pos i t : luby_spec i t -> (1 <= t)%N.
Proof. induction 1 as [k Hk|]; [|auto]. pose proof (N.pow_nonzero 2 (N.of_nat (k - 1))). lia. Qed.
Lemma next_restart_ok select dbg F s : anysel select -> reach select dbg F s ->
  (512 * N.of_nat (restarts s) <= sc_next_restart (so_sc s))%N /\ 512 * restarts s <= conflicts s + 512.
Proof.
  intros Hs. induction 1 as [F s H|F s r cx st HR IH E|F s HR IH|F s c s' HR IH Hc Hw E].
  - destruct (built_counters _ _ _ H) as [C _]. unfold counters in C. injection C as _ _ _ C _. unfold restarts. rewrite C. lia.
  - destruct (MI_reach _ _ _ _ Hs HR) as [(K & L & steps & es & HK & H) HL].
    destruct (schedule_step_ok select _ dbg K _ F L steps es (so_ctx s) (so_state s) Hs (fun e => proj1 HK (or_introl e)) H) as [[E1 _]|(r' & cx' & st' & L1 & steps1 & es1 & E1 & O)];
      rewrite E in E1; [discriminate|]. injection E1 as <- <- <-. pose proof (sc_rst _ _ _ _ _ _ _ _ _ _ _ _ _ O) as T. pose proof (sc_cf _ _ _ _ _ _ _ _ _ _ _ _ _ O) as Q.
    unfold restarts, conflicts in *. cbn [so_ctx so_state]. unfold restarts_now in T. destruct (N.leb_spec (sc_next_restart (so_sc s)) (N.of_nat (st_conflicts (cx_stats (so_ctx s))))) as [G|G].
    + destruct T as (-> & _ & ->). rewrite HL. pose proof (luby_pos _ _ (luby_wide_spec (st_restarts (cx_stats (so_ctx s))))) as P.
      assert (P' : (1 <= fst (luby_wide_advance (wstate (st_restarts (cx_stats (so_ctx s))))))%N) by (unfold luby_wide_advance; destruct (_ =? _)%N; exact P). lia.
    + destruct T as (-> & _ & ->). lia.
  - exact IH.
  - destruct (MI_reach _ _ _ _ Hs HR) as [(K & L & steps & es & HK & H) HL].
    destruct (late_add_core dbg _ _ _ _ _ _ _ H Hc Hw) as [[E1 _]|(s1 & es1 & E1 & H1 & R & Sc)]; rewrite E1 in E; [discriminate|]. injection E as <-.
    destruct (add_counters _ _ _ _ E1) as [C _]. unfold counters in C. injection C as _ _ C1 _ _. unfold restarts, conflicts in *. rewrite R, Sc, C1. exact IH.
Qed.
(** Apart from the first one there is at most one restart per 512 conflicts. *)
Theorem restarts_bounded select dbg F s :
  select_ok (fun _ _ => True) select -> reach select dbg F s -> 512 * restarts s <= conflicts s + 512.
Proof. intros Hs HR. apply (next_restart_ok _ _ _ _ Hs HR). Qed.

(** ** C94 *)
Lemma RW_reach select dbg w a F s : anysel select -> work_reach select dbg w a F s -> nodup_start dbg F ->
  exists L steps es, RW w a F (so_ctx s) (sta_search (so_state s)) L steps es.
Proof.
  intros Hs. induction 1 as [F s H|w z F s r cx st k H IH E|w z F s H IH|w z F s c s' H IH Hc Hw E]; intro D.
  - eapply RW_built; eauto.
  - destruct (IH D) as (L & steps & es & R). eapply RW_schedule; eauto.
  - destruct (IH D) as (L & steps & es & R). exists L, steps, es. apply RW_proof. exact R.
  - destruct (IH (watchable_units _ _ _ _ Hw D)) as (L & steps & es & R). destruct (RW_add _ _ _ _ _ _ _ _ _ _ R Hc Hw E) as (es' & R'). eauto.
Qed.
(** The work of all propagation so far is at most one pass over all clauses (the [n]
    literals of the trail, six units for every literal of the formula and at most
    4 (n + 1) for every learned clause) for every conflict, restart and late clause. *)
Theorem propagation_work select dbg w a F s n :
  select_ok (fun _ _ => True) select -> work_reach select dbg w a F s -> dbg = true \/ distinct_units F -> vars_below F n ->
  w <= (1 + conflicts s + restarts s + a) * (n + 6 * literals F + 4 * (n + 1) * conflicts s).
Proof.
  intros Hs HR D Hn. destruct (RW_reach _ _ _ _ _ _ Hs HR D) as (L & steps & es & R). pose proof (rw_b _ _ _ _ _ _ _ _ R) as B.
  assert (V : cnf_vars F <= n) by (destruct (cnf_vars_wit F) as [->|(c & x & Hc & Hx & ->)]; [lia|specialize (Hn c x Hc Hx); lia]).
  unfold conflicts, restarts, literals. unfold size_bound, lits in B. set (c := st_conflicts _) in *. set (r := st_restarts _) in *. set (l := list_sum _) in *.
  assert (S : cnf_vars F + 6 * l + 4 * (cnf_vars F + 1) * c <= n + 6 * l + 4 * (n + 1) * c) by (apply Nat.add_le_mono; [lia|apply Nat.mul_le_mono_r; lia]).
  apply (Nat.mul_le_mono_l _ _ (1 + c + r + a)) in S. lia.
Qed.
(** In terms of the conflicts alone: quadratic in their number. *)
Theorem propagation_quadratic select dbg w F s n :
  select_ok (fun _ _ => True) select -> work_reach select dbg w 0 F s -> dbg = true \/ distinct_units F -> vars_below F n ->
  w <= 2 * (1 + conflicts s) * (n + 6 * literals F + 4 * (n + 1) * conflicts s).
Proof.
  intros Hs HR D Hn. eapply Nat.le_trans; [eapply propagation_work; eauto|]. apply Nat.mul_le_mono_r.
  assert (R : reach select dbg F s) by (apply counted_run; eauto). pose proof (restarts_bounded _ _ _ _ Hs R). lia.
Qed.
(** A run without conflicts looks at every clause at most once, up to a constant
    factor, however many variables it decides. *)
Theorem propagation_linear select dbg w F s n :
  select_ok (fun _ _ => True) select -> work_reach select dbg w 0 F s -> dbg = true \/ distinct_units F -> vars_below F n -> conflicts s = 0 ->
  w <= 2 * (n + 6 * literals F).
Proof. intros Hs HR D Hn C. pose proof (propagation_quadratic _ _ _ _ _ _ Hs HR D Hn) as Q. rewrite C, Nat.mul_0_r in Q. lia. Qed.

(** ** Examples *)
Fixpoint work_steps (n w : nat) (s : solver) : option (nat * solver) :=
  match n with
  | O => Some (w, s)
  | S n' =>
      match schedule_search_step_n select_sort true (so_ctx s) (so_state s) with
      | Ret ((_, cx, st), k) => work_steps n' (w + k) (mkSolver cx st)
      | _ => None
      end
  end.
Lemma work_steps_reach F n : forall w a s w' s', work_reach select_sort true w a F s -> work_steps n w s = Some (w', s') -> work_reach select_sort true w' a F s'.
Proof.
  induction n as [|n IH]; intros w a s w' s' H E; cbn [work_steps] in E; [inversion E; subst; exact H|].
  destruct (schedule_search_step_n _ _ _ _) as [[[[r cx] st] k]| |] eqn:E1; try discriminate. eapply IH; [eapply wr_step; eauto|exact E].
Qed.
(** Six pigeons: 50 search steps with 19 conflicts take 1029 units of work. *)
Example propagation_work_example :
  exists s, work_reach select_sort true 1029 0 php6 s /\ conflicts s = 19 /\ restarts s = 1 /\ literals php6 = 180 /\ vars_below php6 30.
Proof.
  set (s0 := added true php6).
  assert (X : match work_steps 50 0 s0 with Some (w, s) => w = 1029 /\ conflicts s = 19 /\ restarts s = 1 | None => False end) by (vm_compute; auto).
  destruct (work_steps 50 0 s0) as [[w s]|] eqn:E; [|contradiction]. destruct X as (-> & C & R). exists s.
  split; [eapply work_steps_reach; [|exact E]; apply wr_built; apply built_added; vm_compute; reflexivity|]. split; [exact C|]. split; [exact R|]. split; [vm_compute; reflexivity|].
  assert (Y : forallb (forallb (fun x => vidx x <? 30)) php6 = true) by (vm_compute; reflexivity). intros c x Hc Hx.
  rewrite forallb_forall in Y. specialize (Y c Hc). rewrite forallb_forall in Y. apply Nat.ltb_lt. auto.
Qed.
(** Before the first conflict five steps take 6 units. *)
Example propagation_linear_example : exists s, work_reach select_sort true 6 0 php6 s /\ conflicts s = 0.
Proof.
  set (s0 := added true php6).
  assert (X : match work_steps 5 0 s0 with Some (w, s) => w = 6 /\ conflicts s = 0 | None => False end) by (vm_compute; auto).
  destruct (work_steps 5 0 s0) as [[w s]|] eqn:E; [|contradiction]. destruct X as (-> & C). exists s.
  split; [eapply work_steps_reach; [|exact E]; apply wr_built; apply built_added; vm_compute; reflexivity|exact C].
Qed.

Print Assumptions counted_run.
Print Assumptions restarts_bounded.
Print Assumptions propagation_work.
Print Assumptions propagation_quadratic.
Print Assumptions propagation_linear.
