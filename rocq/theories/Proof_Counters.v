(** Bounds on the 64-bit counters. *)
From Coq Require Import NArith ZArith List Bool Arith Floats.SpecFloat Reals Lia Lra Psatz ZifyN ZifyNat ZifyBool.
From Flocq Require Import Core.Core IEEE754.BinarySingleNaN.
From Verif Require Import Model_Base Model_Lit Model_PartialAssignment Model_Header Model_Arena Model_Prop
  Model_Heap Model_Vsids Model_Analysis Model_Luby Model_Solver Spec Proof_Base Proof_PA Proof_Trail Proof_Inv Proof_Propagate Proof_Solver
  Proof_Luby Proof_Solve Proof_Add Drivers_Solver Drivers_Search Proof_Main Proof_Visited Proof_Size Proof_Float Proof_F64 Prop_Width.
Import ListNotations.

(** ** The reduction interval *)
Section Interval.
Local Open Scope R_scope.
Lemma interval_small (n : N) : (n < 2 ^ 53)%N -> (reduce_interval n <= 2 ^ 38)%N.
Proof.
  intro Hn. unfold reduce_interval.
  destruct (of_N_ok n Hn) as (x & -> & X1 & X2 & X3).
  destruct (of_N_ok 2000 ltac:(reflexivity)) as (c & -> & C1 & C2 & C3). change (IZR (Z.of_N 2000)) with 2000 in C1.
  rewrite sqrt_equiv64, mul_equiv64.
  destruct (Bsqrt_correct 53 1024 _ _ mode_NE x) as (R1 & R2 & R3). change (SpecFloat.fexp 53 1024) with fx64 in R1. cbn [round_mode] in R1. rewrite X1 in R1.
  set (sq := Bsqrt mode_NE x) in *. set (s := rnd64 (sqrt (IZR (Z.of_N n)))) in *.
  assert (N0 : 0 <= IZR (Z.of_N n)) by (apply IZR_le; lia).
  assert (N1 : IZR (Z.of_N n) <= e2 54).
  { apply Rle_trans with (e2 53); [|apply bpow_le; lia]. change (e2 53) with (IZR (2 ^ 53)). apply IZR_le. change (2 ^ 53)%N with 9007199254740992%N in Hn. change (2 ^ 53)%Z with 9007199254740992%Z. lia. }
  assert (Q : sqrt (IZR (Z.of_N n)) <= e2 27).
  { rewrite <- (sqrt_square (e2 27)) by apply bpow_ge_0. apply sqrt_le_1_alt. rewrite <- bpow_plus. exact N1. }
  assert (S0 : 0 <= s). { unfold s. rewrite <- (rnd64_id 0) by apply generic_format_0. apply rnd64_mono. apply sqrt_pos. }
  assert (S1 : s <= e2 27) by (apply bpow_le_val; auto; lia).
  assert (B27 : e2 27 = 134217728) by reflexivity. assert (B38 : e2 38 = 274877906944) by reflexivity.
  assert (P1 : rnd64 (2000 * s) <= e2 38). { apply bpow_le_val; try lia. lra. }
  assert (P0 : 0 <= rnd64 (2000 * s)). { rewrite <- (rnd64_id 0) by apply generic_format_0. apply rnd64_mono. lra. }
  assert (F : is_finite sq = true). { rewrite R2. destruct x as [sx|sx| |sx mx ex Bx]; cbn in *; subst; auto; discriminate. }
  assert (NN : is_nan sq = false). { destruct sq; auto; discriminate. }
  specialize (R3 NN). rewrite X3 in R3.
  pose proof (Bmult_correct 53 1024 _ _ mode_NE c sq) as G. change (SpecFloat.fexp 53 1024) with fx64 in G. cbn [round_mode] in G. rewrite C1, R1 in G.
  rewrite Rlt_bool_true in G.
  2:{ rewrite Rabs_pos_eq by auto. apply Rle_lt_trans with (1 := P1). apply bpow_lt. reflexivity. }
  destruct G as (G1 & G2 & G3). rewrite C2, F in G2.
  rewrite to_u64_ok; auto.
  - rewrite G1. assert (L : (Zfloor (rnd64 (2000 * s)) <= 274877906944)%Z).
    { apply le_IZR. apply Rle_trans with (1 := Zfloor_lb _). rewrite <- B38. exact P1. }
    change (2 ^ 38)%N with 274877906944%N. lia.
  - rewrite G3, C3, R3; auto. destruct (Bmult mode_NE c sq); auto; discriminate.
  - rewrite G1. apply Rle_lt_trans with (1 := P1). apply bpow_lt. reflexivity.
Qed.
End Interval.

(** ** The Luby sequence *)
Lemma luby_v_le n : (lu_v (wstate n) <= N.of_nat n + 1)%N.
Proof.
  destruct (Winv_state n) as (H & a & b & Ha & Hb & Hab). pose proof (wstate_u_bound n).
  destruct (low_is_pow2 _ H) as (_ & _ & Hl). rewrite Ha. assert (2 ^ N.of_nat a <= 2 ^ N.of_nat b)%N by (apply N.pow_le_mono_r; lia). lia.
Qed.

(** ** Increments *)
Definition clauses (s : stats) : nat := st_binary s + st_irredundant s + st_redundant s.
Record inc (s s' : stats) (P dc rs rd cl : nat) : Prop := {
  i_p : st_propagations s' <= st_propagations s + P;
  i_dc : st_decisions s' + st_conflicts s' <= st_decisions s + st_conflicts s + dc;
  i_rs : st_restarts s' <= st_restarts s + rs;
  i_rd : st_reductions s' <= st_reductions s + rd;
  i_cl : clauses s' <= clauses s + cl }.
Lemma inc_refl s : inc s s 0 0 0 0 0.
Proof. constructor; lia. Qed.
Lemma inc_trans s1 s2 s3 a b c d e a' b' c' d' e' : inc s1 s2 a b c d e -> inc s2 s3 a' b' c' d' e' ->
  inc s1 s3 (a + a') (b + b') (c + c') (d + d') (e + e').
Proof. intros [] []. constructor; lia. Qed.

Lemma add_inc dbg cx p h ls ad cx' p' : add_clause_verbatim dbg cx p h ls = Ret (ad, cx', p') ->
  inc (cx_stats cx) (cx_stats cx') 0 0 0 0 1 /\ st_fixed_vars (cx_stats cx') = st_fixed_vars (cx_stats cx).
Proof.
  unfold add_clause_verbatim. intro H. destruct ls as [|a [|b [|c r]]].
  - inversion H; subst. split; [constructor; lia|auto].
  - destruct (pa_is_false _ _) as [[]| |]; cbn [bind] in H; try discriminate; [inversion H; subst; split; [constructor; lia|auto]|].
    unfold assign in H. destruct (assign_raw _ _ _ _) as [[v t]| |]; cbn [bind] in H; try discriminate. inversion H; subst; split; [constructor; lia|auto].
  - destruct (bin_add _ _ _) as [b'| |] eqn:E; cbn [bind] in H; try discriminate. inversion H; subst. split; auto. constructor; unfold clauses; cbn; lia.
  - destruct (long_add_clause _ _ _) as [[[o|] a']| |] eqn:E; cbn [bind] in H; try discriminate.
    destruct (watch_clause _ _ _ _) as [w'| |] eqn:E1; cbn [bind] in H; try discriminate. inversion H; subst. destruct (lh_redundant h); (split; [constructor; unfold clauses; cbn; lia|reflexivity]).
Qed.
Lemma log_stats cx x : cx_stats (cx_log cx x) = cx_stats cx.
Proof. reflexivity. Qed.
Lemma analyze_inc dbg cx an p c cb cx' an' p' cb' : analyze_conflict dbg cx an p c cb = Ret (cx', an', p', cb') ->
  inc (cx_stats cx) (cx_stats cx') 0 0 0 0 1 /\ st_fixed_vars (cx_stats cx') = st_fixed_vars (cx_stats cx).
Proof.
  unfold analyze_conflict. intro H. destruct (negb _); [|discriminate].
  destruct (derive_1uip_clause _ _ _ _) as [[[p1 an1] cb1]| |] eqn:E1; cbn [bind] in H; try discriminate.
  destruct (minimize_derived_clause _ _) as [[lv an2]| |]; cbn [bind] in H; try discriminate.
  destruct (backtrack_to_level _ _ _ _) as [[p2 cb2]| |] eqn:E2; cbn [bind] in H; try discriminate.
  destruct (learn_and_assign _ _ _ _) as [[[cx3 an3] p3]| |] eqn:E3; cbn [bind] in H; try discriminate. inversion H; subst.
  unfold learn_and_assign in E3.
  destruct (if dbg then _ else _); cbn [bind] in E3; try discriminate. destruct (if Nat.ltb 2 _ then _ else _) as [[h an1']| |]; cbn [bind] in E3; try discriminate.
  destruct (add_clause_verbatim _ _ _ _ _) as [[[ad cx2] p1']| |] eqn:E; cbn [bind] in E3; try discriminate. apply add_inc in E. rewrite log_stats in E.
  destruct (match ad with AEmpty => _ | _ => _ end); [|inversion E3; subst; auto]. destruct (vget _ _); cbn [bind] in E3; try discriminate.
  unfold assign in E3. destruct (assign_raw _ _ _ _) as [[v t]| |]; cbn [bind] in E3; try discriminate. inversion E3; subst. exact E.
Qed.
Lemma propagate_inc select dbg F cx se cx' p' r : anysel select -> visited select dbg F cx se -> propagate dbg cx (se_prop se) = Ret (cx', p', r) ->
  let m := cnf_vars F + unit_clauses F in
  inc (cx_stats cx) (cx_stats cx') m 0 0 0 0 /\ (st_fixed_vars (cx_stats cx) <= m -> st_fixed_vars (cx_stats cx') <= m).
Proof.
  intros Hs HV E m. pose proof (vis_propagate _ _ _ _ _ _ _ _ HV E) as HV'. pose proof (proj1 (trail_length _ _ _ _ _ Hs HV')) as B. cbn [with_prop se_prop] in B. fold m in B.
  destruct (visited_SI _ _ _ _ _ Hs HV) as (K & L & st & es & _ & HI).
  destruct (propagate_ok _ _ dbg cx _ (s_pi _ _ _ _ _ _ _ _ HI)) as (cx1 & p1 & es1 & r1 & E1 & HP & _ & _ & _ & R). rewrite E in E1. inversion E1; subst cx1 p1 r1. clear E1.
  destruct r as [c|].
  - destruct R as [_ ->]. split; [constructor; lia|auto].
  - destruct R as [R ->]. unfold prop_stats. cbn [cx_with cx_stats]. split; [constructor; unfold clauses; cbn; lia|]. cbn [st_fixed_vars]. intro X. destruct (Nat.eqb _ 0) eqn:El; [|exact X].
    unfold fixed_var_count. unfold decision_level in El. apply Nat.eqb_eq in El. destruct (nth_error (t_decisions (p_trail p')) 1) as [i|] eqn:Ei; [|exact B].
    exfalso. assert (1 < length (t_decisions (p_trail p'))) by (apply nth_error_Some; congruence). lia.
Qed.
Lemma restart_inc dbg cx se cx' se' : restart dbg cx se = Ret (cx', se') ->
  inc (cx_stats cx) (cx_stats cx') 0 0 1 0 0 /\ st_fixed_vars (cx_stats cx') = st_fixed_vars (cx_stats cx) /\ st_conflicts (cx_stats cx') = st_conflicts (cx_stats cx).
Proof.
  unfold restart. intro E. destruct (Nat.ltb 0 _); [destruct (backtrack_to_level _ _ _ _) as [[p cb]| |]; cbn [bind] in E; try discriminate|];
  inversion E; subst; (split; [constructor; unfold clauses; cbn; lia|auto]).
Qed.
Lemma reduce_inc select cx se cx' se' : reduce select cx se = Ret (cx', se') ->
  inc (cx_stats cx) (cx_stats cx') 0 0 0 1 0 /\ st_fixed_vars (cx_stats cx') = st_fixed_vars (cx_stats cx).
Proof.
  unfold reduce. intro E.
  destruct (protect_clauses true _ _) as [a1| |]; cbn [bind] in E; try discriminate.
  destruct (candidates_loop _ _ _ _) as [[a2 cands]| |]; cbn [bind] in E; try discriminate.
  destruct (match cands with [] => _ | _ :: _ => _ end) as [[cx2 a3]| |] eqn:E3; cbn [bind] in E; try discriminate.
  destruct (protect_clauses false _ _) as [a4| |]; cbn [bind] in E; try discriminate.
  inversion E; subst. clear E.
  assert (Q0 : inc (cx_stats cx) (cx_stats (bump_reductions cx)) 0 0 0 1 0 /\ st_fixed_vars (cx_stats (bump_reductions cx)) = st_fixed_vars (cx_stats cx)).
  { split; [constructor; unfold clauses; cbn; lia|reflexivity]. }
  destruct cands as [|x r]; [inversion E3; subst; exact Q0|].
  destruct (select _ _) as [[lo m] hi]. change cx' with (fst (cx', a3)).
  refine (foldM_inv (fun s => inc (cx_stats cx) (cx_stats (fst s)) 0 0 0 1 0 /\ st_fixed_vars (cx_stats (fst s)) = st_fixed_vars (cx_stats cx)) _ _ _ _ _ E3 Q0).
  intros [cx0 a0] y [cx3 a5] Ed HS. unfold delete_candidate in Ed. cbn [fst] in *. destruct (Nat.ltb _ _); [|discriminate].
  destruct (match cx_proof _ with Some _ => _ | None => _ end) as [cx4| |] eqn:E4; cbn [bind] in Ed; try discriminate.
  destruct (long_delete _ _); cbn [bind] in Ed; try discriminate. inversion Ed; subst.
  assert (X : inc (cx_stats cx) (cx_stats (cx_with cx0 (mkStats (st_propagations (cx_stats cx0)) (st_fixed_vars (cx_stats cx0)) (st_binary (cx_stats cx0))
     (st_irredundant (cx_stats cx0)) (st_redundant (cx_stats cx0) - 1) (st_vars (cx_stats cx0)) (st_decisions (cx_stats cx0)) (st_conflicts (cx_stats cx0)) (st_restarts (cx_stats cx0)) (st_reductions (cx_stats cx0))))) 0 0 0 1 0).
  { destruct HS as [[] _]. constructor; unfold clauses in *; cbn in *; lia. }
  destruct (cx_proof _); [destruct (long_lits _ _); cbn [bind] in E4; try discriminate|]; inversion E4; subst; rewrite ?log_stats; (split; [exact X|apply HS]).
Qed.
Lemma step_inc select dbg F cx se r cx' se' : anysel select -> visited select dbg F cx se -> search_step dbg cx se = Ret (r, cx', se') ->
  let m := cnf_vars F + unit_clauses F in
  inc (cx_stats cx) (cx_stats cx') m 1 0 0 1 /\ (st_fixed_vars (cx_stats cx) <= m -> st_fixed_vars (cx_stats cx') <= m).
Proof.
  intros Hs HV E m. unfold search_step in E. destruct (p_unsat (se_prop se)); [inversion E; subst; split; [constructor; lia|auto]|].
  destruct (prop_collect_garbage dbg (se_prop se)) as [p0| |] eqn:E0; try discriminate. cbn [bind] in E.
  pose proof (vis_collect _ _ _ _ _ _ HV E0) as HV0.
  destruct (propagate dbg cx p0) as [[[cx1 p1] r1]| |] eqn:E1; try discriminate. cbn [bind] in E.
  destruct (propagate_inc select dbg F cx (with_prop se p0) _ _ _ Hs HV0 E1) as [I1 I2]. fold m in I1, I2.
  assert (IC : inc (cx_stats cx1) (cx_stats (bump_conflicts cx1)) 0 1 0 0 0) by (constructor; unfold clauses; cbn; lia).
  assert (ID : inc (cx_stats cx1) (cx_stats (bump_decisions cx1)) 0 1 0 0 0) by (constructor; unfold clauses; cbn; lia).
  destruct r1 as [c|].
  - destruct (Nat.eqb _ _).
    + inversion E; subst. split; [|exact I2]. destruct (inc_trans _ _ _ _ _ _ _ _ _ _ _ _ _ I1 IC). constructor; lia.
    + destruct (analyze_conflict _ _ _ _ _ _) as [[[[cx3 an] p2] cb]| |] eqn:E2; try discriminate. cbn [bind] in E. inversion E; subst.
      apply analyze_inc in E2 as [A1 A2]. split; [|rewrite A2; exact I2]. destruct (inc_trans _ _ _ _ _ _ _ _ _ _ _ _ _ (inc_trans _ _ _ _ _ _ _ _ _ _ _ _ _ I1 IC) A1). constructor; lia.
  - destruct (pop_decision_var _ _) as [[ov vs]| |] eqn:E2; try discriminate. cbn [bind] in E. destruct ov as [v|]; [|inversion E; subst; split; [destruct I1; constructor; lia|exact I2]].
    destruct (decide_phase _ _) as [l| |] eqn:E3; try discriminate. cbn [bind] in E.
    destruct (assign_decision _ _ _); cbn [bind] in E; try discriminate. inversion E; subst. split; [|exact I2]. destruct (inc_trans _ _ _ _ _ _ _ _ _ _ _ _ _ I1 ID). constructor; lia.
Qed.
Lemma solver_add_inc dbg s c s' : solver_add_clause dbg s c = Ret s' ->
  inc (cx_stats (so_ctx s)) (cx_stats (so_ctx s')) 0 0 0 0 1 /\ st_fixed_vars (cx_stats (so_ctx s')) = st_fixed_vars (cx_stats (so_ctx s)) /\
  sta_schedule (so_state s') = sta_schedule (so_state s) /\ st_conflicts (cx_stats (so_ctx s')) = st_conflicts (cx_stats (so_ctx s)).
Proof.
  unfold solver_add_clause. intro E. assert (Q : forall cx p h ls ad cx' p', add_clause_verbatim dbg cx p h ls = Ret (ad, cx', p') -> st_conflicts (cx_stats cx') = st_conflicts (cx_stats cx)).
  { intros cx p h ls ad cx' p' H. unfold add_clause_verbatim in H. destruct ls as [|a [|b [|d r]]].
    - inversion H; subst; auto.
    - destruct (pa_is_false _ _) as [[]| |]; cbn [bind] in H; try discriminate; [inversion H; subst; auto|].
      unfold assign in H. destruct (assign_raw _ _ _ _) as [[v t]| |]; cbn [bind] in H; try discriminate. inversion H; subst; auto.
    - destruct (bin_add _ _ _) as [b'| |]; cbn [bind] in H; try discriminate. inversion H; subst; auto.
    - destruct (long_add_clause _ _ _) as [[[o|] a']| |]; cbn [bind] in H; try discriminate. destruct (watch_clause _ _ _ _); cbn [bind] in H; try discriminate. inversion H; subst. destruct (lh_redundant h); auto. }
  destruct (st_vars _ <? _).
  - destruct (search_resize _ _) as [se| |]; cbn [bind] in E; try discriminate. destruct (add_clause_verbatim _ _ _ _ _) as [[[ad cx2] p1]| |] eqn:E1; cbn [bind] in E; try discriminate.
    inversion E; subst. pose proof (Q _ _ _ _ _ _ _ E1) as Q1. apply add_inc in E1 as [A1 A2]. cbn [so_ctx so_state sta_schedule] in *. split; [|auto]. destruct A1; constructor; auto.
  - cbn [bind] in E. destruct (add_clause_verbatim _ _ _ _ _) as [[[ad cx2] p1]| |] eqn:E1; cbn [bind] in E; try discriminate.
    inversion E; subst. pose proof (Q _ _ _ _ _ _ _ E1) as Q1. apply add_inc in E1 as [A1 A2]. cbn [so_ctx so_state sta_schedule] in *. auto.
Qed.
