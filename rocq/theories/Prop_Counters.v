(** C89: no 64-bit counter overflows. *)
From Coq Require Import NArith ZArith List Bool Arith Lia ZifyN ZifyNat ZifyBool.
From Verif Require Import Model_Base Model_Lit Model_PartialAssignment Model_Header Model_Arena Model_Prop
  Model_Heap Model_Vsids Model_Analysis Model_Luby Model_Solver Spec Proof_Base Proof_PA Proof_Trail Proof_Inv Proof_Solver
  Proof_Luby Proof_Solve Proof_Add Drivers_Solver Drivers_Search Proof_Main Proof_Select Proof_Visited Examples_Solver Proof_Counters.
Import ListNotations.

(** [reach] with the number of search steps taken *)
Inductive reach_in (select : selection) (dbg : bool) : nat -> list (list N) -> solver -> Prop :=
| ri_built F s : built dbg F s -> reach_in select dbg 0 F s
| ri_step k F s r cx st : reach_in select dbg k F s ->
    schedule_search_step select dbg (so_ctx s) (so_state s) = Ret (r, cx, st) ->
    reach_in select dbg (S k) F (mkSolver cx st)
| ri_close_proof k F s : reach_in select dbg k F s -> reach_in select dbg k F (solver_close_proof s)
| ri_add k F s c s' : reach_in select dbg k F s -> valid_clause c -> watchable s c ->
    solver_add_clause dbg s c = Ret s' -> reach_in select dbg k (F ++ [c]) s'.

(** The same states: nothing is left out. *)
Lemma reach_in_iff select dbg F s : reach select dbg F s <-> exists k, reach_in select dbg k F s.
Proof.
  split.
  - induction 1 as [F s H|F s r cx st H [k IH] E|F s H [k IH]|F s c s' H [k IH] Hc Hw E].
    + exists 0. now apply ri_built. + exists (S k). eapply ri_step; eauto. + exists k. now apply ri_close_proof. + exists k. eapply ri_add; eauto.
  - intros [k H]. induction H as [F s H|k F s r cx st H IH E|k F s H IH|k F s c s' H IH Hc Hw E].
    + now apply reach_built. + eapply reach_step; eauto. + now apply reach_close_proof. + eapply reach_add; eauto.
Qed.

Record CI (k : nat) (F : list (list N)) (s : solver) : Prop := {
  ci_p : st_propagations (cx_stats (so_ctx s)) <= k * (cnf_vars F + unit_clauses F);
  ci_dc : st_decisions (cx_stats (so_ctx s)) + st_conflicts (cx_stats (so_ctx s)) <= k;
  ci_rs : st_restarts (cx_stats (so_ctx s)) <= k;
  ci_rd : st_reductions (cx_stats (so_ctx s)) <= k;
  ci_cl : clauses (cx_stats (so_ctx s)) <= length F + k;
  ci_fx : st_fixed_vars (cx_stats (so_ctx s)) <= cnf_vars F + unit_clauses F;
  ci_sr : (sc_reductions (so_sc s) <= N.of_nat k)%N;
  ci_nr : (sc_next_restart (so_sc s) <= N.of_nat k + 512 * (N.of_nat k + 1))%N;
  ci_nd : (N.of_nat k < 2 ^ 53 -> sc_next_reduce (so_sc s) <= N.of_nat k + 2 ^ 38)%N }.

Lemma mono_m F c : cnf_vars F + unit_clauses F <= cnf_vars (F ++ [c]) + unit_clauses (F ++ [c]).
Proof. rewrite cnf_vars_snoc. unfold unit_clauses. rewrite filter_app, app_length. lia. Qed.
Lemma add_CI dbg k F s c s' : solver_add_clause dbg s c = Ret s' -> CI k F s -> CI k (F ++ [c]) s'.
Proof.
  intros E [A1 A2 A3 A4 A5 A6 A7 A8 A9]. pose proof (mono_m F c). apply solver_add_inc in E as ([B1 B2 B3 B4 B5] & B6 & B7 & _).
  constructor; rewrite ?B7; auto; rewrite ?app_length; cbn [length]; try lia. nia.
Qed.
Lemma reach_in_CI select dbg k F s : anysel select -> reach_in select dbg k F s -> CI k F s.
Proof.
  intros Hs H. induction H as [F s H|k F s r cx st H IH E|k F s H IH|k F s c s' H IH Hc Hw E].
  - induction H as [|F s c s' HB IH Hc E|F s HB IH|F s HB IH].
    + constructor; cbn; lia.
    + eapply add_CI; eauto.
    + destruct IH; constructor; auto.
    + destruct IH; constructor; auto.
  - assert (HR : reach select dbg F s) by (apply reach_in_iff; eauto). pose proof (vis_solver _ _ _ _ HR) as HV. pose proof (mi_luby _ _ _ (MI_reach _ _ _ _ Hs HR)) as HL.
    clear H. unfold schedule_search_step in E.
    destruct IH as [A1 A2 A3 A4 A5 A6 A7 A8 A9].
    assert (Q : let '(dr, sc1) := should_restart (so_ctx s) (so_sc s) in (sc_next_restart sc1 <= N.of_nat (S k) + 512 * (N.of_nat (S k) + 1))%N /\ sc_next_reduce sc1 = sc_next_reduce (so_sc s) /\ sc_reductions sc1 = sc_reductions (so_sc s)).
    { unfold should_restart. destruct (_ <=? _)%N; [|split; [lia|auto]]. pose proof (luby_wide_fst (sc_luby (so_sc s))) as Hf.
      destruct (luby_wide_advance _) as [t l]. cbn [fst] in Hf. subst t. rewrite HL. pose proof (luby_v_le (st_restarts (cx_stats (so_ctx s)))). cbn. split; [lia|auto]. }
    destruct (should_restart _ _) as [dr sc1]. destruct Q as (Q1 & Q2 & Q3).
    destruct (if dr then _ else _) as [[cx1 se1]| |] eqn:E1; cbn [bind] in E; try discriminate.
    assert (I1 : visited select dbg F cx1 se1 /\ inc (cx_stats (so_ctx s)) (cx_stats cx1) 0 0 1 0 0 /\ st_fixed_vars (cx_stats cx1) = st_fixed_vars (cx_stats (so_ctx s)) /\ st_conflicts (cx_stats cx1) = st_conflicts (cx_stats (so_ctx s))).
    { destruct dr; [|inversion E1; subst; split; [auto|split; [constructor; lia|auto]]]. split; [eapply vis_restart; eauto|eapply restart_inc; eauto]. }
    destruct I1 as (V1 & I1 & F1 & C1).
    assert (R : let '(dd, sc2) := should_reduce cx1 sc1 in sc_next_restart sc2 = sc_next_restart sc1 /\ (sc_reductions sc2 <= N.of_nat (S k))%N /\ (N.of_nat (S k) < 2 ^ 53 -> sc_next_reduce sc2 <= N.of_nat (S k) + 2 ^ 38)%N).
    { unfold should_reduce. destruct (N.leb_spec (sc_next_reduce sc1) (N.of_nat (st_conflicts (cx_stats cx1)))) as [G|G].
      - cbn. split; auto. split; [lia|]. intro HK. pose proof (interval_small (sc_reductions sc1 + 1) ltac:(lia)). lia.
      - split; auto. split; [lia|]. intro HK. rewrite Q2. specialize (A9 ltac:(lia)). lia. }
    destruct (should_reduce cx1 sc1) as [dd sc2]. destruct R as (R1 & R2 & R3).
    destruct (if dd then _ else _) as [[cx2 se2]| |] eqn:E2; cbn [bind] in E; try discriminate.
    assert (I2 : visited select dbg F cx2 se2 /\ inc (cx_stats cx1) (cx_stats cx2) 0 0 0 1 0 /\ st_fixed_vars (cx_stats cx2) = st_fixed_vars (cx_stats cx1)).
    { destruct dd; [|inversion E2; subst; split; [auto|split; [constructor; lia|auto]]]. destruct (reduce select cx1 se1) as [[cx4 se4]| |] eqn:E4; cbn [bind] in E2; try discriminate.
      destruct (report _ _); cbn [bind] in E2; try discriminate. inversion E2; subst. split; [eapply vis_reduce; eauto|eapply reduce_inc; eauto]. }
    destruct I2 as (V2 & I2 & F2).
    destruct (search_step dbg cx2 se2) as [[[r3 cx3] se3]| |] eqn:E3; cbn [bind] in E; try discriminate. inversion E; subst.
    destruct (step_inc _ _ _ _ _ _ _ _ Hs V2 E3) as [I3 F3].
    destruct (inc_trans _ _ _ _ _ _ _ _ _ _ _ _ _ (inc_trans _ _ _ _ _ _ _ _ _ _ _ _ _ I1 I2) I3) as [B1 B2 B3 B4 B5].
    constructor; cbn [so_ctx so_state sta_schedule]; try lia.
  - destruct IH; constructor; auto.
  - eapply add_CI; eauto.
Qed.

(** ** C89 *)
(** After [k] search steps, every counter is bounded in terms of [k] and the clauses
    added. *)
Theorem counters_bounded select dbg k F s :
  select_ok (fun _ _ => True) select -> reach_in select dbg k F s ->
  let c := cx_stats (so_ctx s) in let m := st_vars c + unit_clauses F in
  st_decisions c + st_conflicts c <= k /\ st_restarts c <= k /\ st_reductions c <= k /\
  st_propagations c <= k * m /\ st_fixed_vars c <= m /\ st_binary c + st_irredundant c + st_redundant c <= length F + k.
Proof.
  intros Hs H c m. destruct (reach_in_CI _ _ _ _ _ Hs H) as [A1 A2 A3 A4 A5 A6 _ _ _].
  assert (HR : reach select dbg F s) by (apply reach_in_iff; eauto). pose proof (vis_solver _ _ _ _ HR) as HV. destruct (visited_SI _ _ _ _ _ Hs HV) as (K & L & st & es & _ & HI).
  pose proof (sti_vars _ _ _ _ _ (s_st _ _ _ _ _ _ _ _ HI)) as Ev. fold c in Ev. unfold m. rewrite Ev. unfold clauses in A5. fold c in A1, A2, A3, A4, A5, A6. auto 10.
Qed.

(** So in the first 2^52 search steps no counter exceeds the range of [u64] as long as
    the propagations and the clauses added do not: neither the statistics nor those of
    the restart and reduction schedules, where also the sum computed for the next restart
    or reduction and the 64-bit Luby sequence do not overflow. *)
Theorem counters_fit select dbg k F s :
  select_ok (fun _ _ => True) select -> reach_in select dbg k F s ->
  let c := cx_stats (so_ctx s) in let sc := sta_schedule (so_state s) in let fits n := (n < 2 ^ 64)%N in
  (N.of_nat k < 2 ^ 52)%N -> (N.of_nat k * N.of_nat (st_vars c + unit_clauses F) < 2 ^ 64)%N -> (N.of_nat (length F) < 2 ^ 63)%N ->
  Forall (fun n => fits (N.of_nat n))
    [st_propagations c; st_fixed_vars c; st_binary c; st_irredundant c; st_redundant c; st_vars c;
     st_decisions c; st_conflicts c; st_restarts c; st_reductions c] /\
  Forall fits [sc_next_restart sc; sc_next_reduce sc; sc_reductions sc; lu_u (sc_luby sc); lu_v (sc_luby sc)] /\
  Forall (fun x => fits (x + 1)%N) [N.of_nat (st_conflicts c); sc_reductions sc; lu_u (sc_luby sc)] /\
  fits (N.of_nat (st_conflicts c) + fst (luby_wide_advance (sc_luby sc)) * 512)%N /\
  fits (sc_next_reduce sc + reduce_interval (sc_reductions sc + 1))%N /\
  luby_advance (sc_luby sc) = luby_wide_advance (sc_luby sc).
Proof.
  intros Hs H c sc fits. pose proof (counters_bounded _ _ _ _ _ Hs H) as CB. cbv zeta in CB. fold c in CB.
  destruct (reach_in_CI _ _ _ _ _ Hs H) as [_ _ _ _ _ _ S1 S2 S3]. fold sc in S1, S2, S3.
  assert (HR : reach select dbg F s) by (apply reach_in_iff; eauto). pose proof (mi_luby _ _ _ (MI_reach _ _ _ _ Hs HR)) as HL. fold sc in HL. fold c in HL.
  pose proof (vis_solver _ _ _ _ HR) as HV. destruct (visited_SI _ _ _ _ _ Hs HV) as (K & L & st & es & _ & HI).
  pose proof (sti_vars _ _ _ _ _ (s_st _ _ _ _ _ _ _ _ HI)) as Ev. fold c in Ev. pose proof (proj2 (proj2 (Prop_Width.trail_length _ _ _ _ _ Hs HV))) as B30. rewrite <- Ev in B30.
  assert (UF : unit_clauses F <= length F). { unfold unit_clauses. clear. induction F as [|d F IH]; cbn; [lia|]. destruct (Nat.eqb _ _); cbn; lia. }
  intros H1 H2 H3. set (m := st_vars c + unit_clauses F) in *.
  change (2 ^ 52)%N with 4503599627370496%N in *. change (2 ^ 53)%N with 9007199254740992%N in *. change (2 ^ 38)%N with 274877906944%N in *.
  change (2 ^ 63)%N with 9223372036854775808%N in *. unfold fits. change (2 ^ 64)%N with 18446744073709551616%N in *. change (2 ^ 30)%N with 1073741824%N in *. specialize (S3 ltac:(lia)).
  pose proof (luby_v_le (st_restarts c)) as L1. pose proof (wstate_u_bound (st_restarts c)) as L2. rewrite <- HL in L1, L2.
  pose proof (luby_wide_fst (sc_luby sc)) as L3.
  pose proof (interval_small (sc_reductions sc + 1)) as L4. change (2 ^ 53)%N with 9007199254740992%N in L4. change (2 ^ 38)%N with 274877906944%N in L4. specialize (L4 ltac:(lia)).
  destruct CB as (C1 & C2 & C3 & C4 & C5 & C6).
  assert (P : (N.of_nat (st_propagations c) <= N.of_nat k * N.of_nat m)%N) by nia.
  assert (M : (N.of_nat m < 18446744073709551616)%N) by lia.
  split; [repeat constructor; lia|]. split; [repeat constructor; lia|]. split; [repeat constructor; lia|].
  split; [rewrite L3; lia|]. split; [lia|]. apply luby_advance_wide; [rewrite HL; apply Winv_state|]. change U64 with 18446744073709551616%N. lia.
Qed.

(** The hypotheses are met: forty steps on the pigeonhole principle for five holes *)
Fixpoint steps_of (n : nat) (s : solver) : option solver :=
  match n with
  | O => Some s
  | S n => match schedule_search_step select_sort true (so_ctx s) (so_state s) with
           | Ret (_, cx, st) => steps_of n (mkSolver cx st)
           | _ => None
           end
  end.
Lemma steps_of_in F n : forall k s s', reach_in select_sort true k F s -> steps_of n s = Some s' -> reach_in select_sort true (n + k) F s'.
Proof.
  induction n as [|n IH]; intros k s s' H E; cbn [steps_of] in E; [inversion E; subst; auto|].
  destruct (schedule_search_step _ _ _ _) as [[[r cx] st]| |] eqn:Es; try discriminate.
  replace (S n + k) with (n + S k) by lia. eapply IH; [|exact E]. eapply ri_step; eauto.
Qed.
Example counters_ex : exists s, reach_in select_sort true 40 php5 s /\ (let c := cx_stats (so_ctx s) in (st_decisions c, st_conflicts c, st_restarts c, st_reductions c, st_propagations c, clauses c, length php5)) = (23, 17, 1, 1, 35, 62, 45).
Proof.
  destruct (steps_of 40 (added true php5)) as [s|] eqn:E; [|vm_compute in E; discriminate].
  exists s. split.
  - apply (steps_of_in php5 40 0 (added true php5)); [|exact E]. constructor. apply php5_built.
  - change s with (match Some s with Some s => s | None => s end). rewrite <- E. vm_compute. reflexivity.
Qed.

Print Assumptions counters_bounded. Print Assumptions counters_fit.
