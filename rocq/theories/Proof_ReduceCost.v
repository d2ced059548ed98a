(** The work of clause database reductions. *)
From Coq Require Import NArith List Bool Arith Lia Permutation ZifyN ZifyNat ZifyBool.
From Verif Require Import Model_Base Model_Lit Model_PartialAssignment Model_Header Model_Arena Model_MutScan Model_Prop
  Model_Heap Model_Vsids Model_Analysis Model_Luby Model_Solver Model_Cost Model_GcCost Model_ReduceCost Spec Drivers_Arena Proof_Base Proof_PA Proof_Lit Proof_Arena Proof_ArenaHist
  Proof_Long Proof_Trail Proof_PropOps Proof_Backtrack Proof_Inv Proof_Propagate Proof_Gc Proof_Analysis Proof_Learn Proof_DB Proof_Reduce Proof_Solver Proof_Search Proof_Solve Proof_Add
  Drivers_Solver Drivers_Search Proof_Main Proof_Select Proof_Visited Proof_Cost Proof_Garbage Proof_Tables Prop_Width Proof_Size Proof_GcCost.
Import ListNotations.

(** ** The counter does not change results *)
Lemma er_protect b t a : erase (protect_clauses_n b t a) = protect_clauses b t a.
Proof. apply er_fold. intros. apply er_units. Qed.
Lemma er_candidates fuel : forall a it cs, erase (candidates_loop_n fuel a it cs) = candidates_loop fuel a it cs.
Proof.
  induction fuel as [|f IH]; intros a it cs; [reflexivity|]. cbn [candidates_loop_n candidates_loop]. apply er_bind; [apply er_next|]. intros [c|]; [|reflexivity].
  apply er_bind; [apply er_units|]. intros [a' o]. apply IH.
Qed.
Lemma er_delete st x : erase (delete_candidate_n st x) = delete_candidate st x.
Proof.
  destruct st as [cx a]. unfold delete_candidate_n, delete_candidate. destruct (Nat.ltb _ _); [|reflexivity]. apply er_bind.
  - destruct (cx_proof _); [|reflexivity]. apply er_bind; [apply er_units|]. intro ls. apply er_units.
  - intro cx2. apply er_bind; [apply er_units|]. intro a'. reflexivity.
Qed.
Lemma er_reduce select cx se : erase (reduce_n select cx se) = reduce select cx se.
Proof.
  unfold reduce_n, reduce. apply er_bind; [apply er_protect|]. intro a1. apply er_bind; [apply er_candidates|]. intros [a2 cands]. apply er_bind.
  - destruct cands as [|x r]; [reflexivity|]. destruct (select (x :: r) _) as [lm hi]. unfold units, bindC at 1. cbn [bind snd].
    rewrite <- (er_fold delete_candidate_n delete_candidate hi er_delete). destruct (foldC _ _ _) as [[? ?]| |]; reflexivity.
  - intros [cx2 a3]. apply er_bind; [apply er_protect|]. intro a4. reflexivity.
Qed.
Lemma er_schedule_r select dbg cx st : erase (schedule_search_step_r select dbg cx st) = schedule_search_step select dbg cx st.
Proof.
  unfold schedule_search_step_r, schedule_search_step. destruct (should_restart _ _) as [dr sc1]. apply er_bind; [apply er_units|]. intros [cx1 se1].
  destruct (should_reduce _ _) as [dd sc2]. apply er_bind.
  - destruct dd; [|reflexivity]. apply er_bind; [apply er_reduce|]. intros [cx2 se2]. apply er_bind; [apply er_units|]. reflexivity.
  - intros [cx2 se2]. apply er_bind; [apply er_units|]. intros [[r cx3] se3]. reflexivity.
Qed.

(** ** One reduction *)
Lemma foldC_const {A S} (f : S -> A -> res S) l : forall s s' k, foldC (fun s a => units 1 (f s a)) l s = Ret (s', k) -> k = length l.
Proof.
  induction l as [|a r IH]; intros s s' k E; cbn [foldC] in E; [inversion E; reflexivity|].
  apply bindC_ret in E as (s1 & k1 & k2 & E1 & E & ->). apply units_ret in E1 as [_ ->]. apply IH in E. cbn [length]. lia.
Qed.
Lemma candidates_cost fuel : forall a it cs a' cs' k, candidates_loop_n fuel a it cs = Ret ((a', cs'), k) ->
  k <= length (a_buffer a) + 1 - match it with Some c => c + 3 | None => 0 end /\ length cs' <= length cs + k.
Proof.
  induction fuel as [|f IH]; intros a it cs a' cs' k E; [discriminate|]. cbn [candidates_loop_n] in E.
  apply bindC_ret in E as (n & k1 & k2 & E1 & E & ->). apply next_cost in E1 as (s & Es & C).
  assert (B : match it with Some c => c + 3 | None => 0 end <= s).
  { destruct it as [c|]; [|lia]. destruct (clause_len _ a c) as [len| |]; cbn [bind] in Es; try discriminate. injection Es as <-. change LONG_HEADER_LEN with 2. lia. }
  destruct n as [d|]; [|inversion E; subst; lia].
  apply bindC_ret in E as ([a1 o] & k3 & k4 & E1 & E & ->). apply units_ret in E1 as [E1 ->]. apply candidate_size in E1. unfold awords in E1. apply IH in E. rewrite E1 in E.
  destruct E as [E2 E3]. split; [lia|]. destruct o; rewrite ?app_length in E3; cbn [length] in E3; lia.
Qed.
Lemma lits_len a c ls len : long_lits a c = Ret ls -> clause_len 2 a c = Ret len -> length ls = len.
Proof.
  unfold long_lits, arena_lits. change LONG_HEADER_LEN with 2. intros E H. rewrite H in E. cbn [bind] in E. unfold read_words in E. destruct (Nat.leb_spec (c + 2 + 1 + len) (length (a_buffer a))); [|discriminate].
  inversion E; subst. rewrite firstn_length, skipn_length. lia.
Qed.
Lemma deletes_cost l : forall cx a cx' a' k, foldC delete_candidate_n l (cx, a) = Ret ((cx', a'), k) -> k + a_garbage a <= a_garbage a'.
Proof.
  induction l as [|x l IH]; intros cx a cx' a' k E; cbn [foldC] in E; [inversion E; lia|].
  apply bindC_ret in E as ([cx1 a1] & k1 & k2 & E1 & E & ->). apply IH in E.
  assert (Q : k1 + a_garbage a <= a_garbage a1); [|lia]. clear - E1. unfold delete_candidate_n in E1. destruct (Nat.ltb _ _); [|discriminate].
  apply bindC_ret in E1 as (cx2 & k3 & k4 & E2 & E1 & ->). apply bindC_ret in E1 as (a2 & k5 & k6 & E3 & E1 & ->). apply units_ret in E3 as [E3 ->]. inversion E1; subst. clear E1.
  unfold long_delete, arena_delete_clause in E3. change LONG_HEADER_LEN with 2 in E3. destruct (clause_len 2 a (snd x)) as [len| |] eqn:El; cbn [bind] in E3; try discriminate.
  assert (G : a_garbage a1 = a_garbage a + (len + 2 + 1)) by (destruct (Nat.ltb 0 len); inversion E3; reflexivity).
  assert (K : k3 <= len); [|lia]. destruct (cx_proof _); [|inversion E2; lia].
  apply bindC_ret in E2 as (ls & k5 & k6 & E4 & E2 & ->). apply units_ret in E4 as [E4 ->]. apply units_ret in E2 as [_ ->]. rewrite (lits_len _ _ _ _ E4 El). lia.
Qed.
Lemma protect_garbage b t a a' : protect_clauses b t a = Ret a' -> a_garbage a' = a_garbage a.
Proof.
  unfold protect_clauses. intro H. refine (Proof_Size.foldM_inv (fun x => a_garbage x = a_garbage a) _ _ _ _ _ H eq_refl).
  intros s x s' E HS. unfold protect_step in E. destruct (s_reason x); try (inversion E; subst; auto; fail).
  destruct (long_header_of _ _); cbn [bind] in E; try discriminate. unfold long_set_header, arena_set_header in E. destruct (clause_len _ _ _); cbn [bind] in E; try discriminate. inversion E; subst. exact HS.
Qed.
Lemma reduce_cost select dbg F cx se cx' se' k : anysel select -> visited select dbg F cx se -> reduce_n select cx se = Ret ((cx', se'), k) ->
  k <= 2 * length (t_steps (p_trail (se_prop se))) + 3 * awords (p_long (se_prop se)) + 2.
Proof.
  intros Hs HV E. assert (ER : reduce select cx se = Ret (cx', se')) by (rewrite <- er_reduce, E; reflexivity).
  pose proof (vis_reduce _ _ _ _ _ _ _ HV ER) as HV'. pose proof (reduce_size _ _ _ _ _ ER) as ES.
  destruct (visited_SI _ _ _ _ _ Hs HV') as (K & L & st & es & _ & HI). pose proof (used_total _ _ _ (s_pi _ _ _ _ _ _ _ _ HI)) as UT.
  unfold reduce_n in E. apply bindC_ret in E as (a1 & k1 & k2 & E1 & E & ->). apply bindC_ret in E as ([a2 cands] & k3 & k4 & E2 & E & ->).
  apply bindC_ret in E as ([cx2 a3] & k5 & k6 & E3 & E & ->). apply bindC_ret in E as (a4 & k7 & k8 & E4 & E & ->). inversion E; subst. clear E.
  assert (P1 : awords a1 = awords (p_long (se_prop se))) by (eapply protect_size; rewrite <- er_protect, E1; reflexivity).
  assert (P4 : a_garbage a4 = a_garbage a3) by (eapply protect_garbage; rewrite <- er_protect, E4; reflexivity).
  apply foldC_const in E1, E4. apply candidates_cost in E2 as [C1 C2]. cbn [length] in C2. fold (awords a1) in C1. rewrite P1 in C1.
  cbn [se_prop p_long p_set_long] in UT, ES. rewrite ES in UT. 
  assert (D : k5 <= length cands + a_garbage a3).
  { destruct cands as [|x r]; [inversion E3; lia|]. apply bindC_ret in E3 as (parts & k9 & k10 & E5 & E3 & ->). apply units_ret in E5 as [E5 ->]. apply deletes_cost in E3. lia. }
  lia.
Qed.

(** ** The words of the clause memory *)
Lemma step_words select dbg F cx se r cx' se' : anysel select -> visited select dbg F cx se -> search_step dbg cx se = Ret (r, cx', se') ->
  let m := cnf_vars F + unit_clauses F in
  awords (p_long (se_prop se')) + st_conflicts (cx_stats cx) * (m + 3) <= awords (p_long (se_prop se)) + st_conflicts (cx_stats cx') * (m + 3) /\
  st_reductions (cx_stats cx') = st_reductions (cx_stats cx) /\ st_conflicts (cx_stats cx) <= st_conflicts (cx_stats cx').
Proof.
  intros Hs HV E m. unfold search_step in E. destruct (p_unsat (se_prop se)); [inversion E; subst; lia|].
  destruct (prop_collect_garbage dbg (se_prop se)) as [p0| |] eqn:E0; cbn [bind] in E; try discriminate.
  assert (S0 : awords (p_long p0) <= awords (p_long (se_prop se))).
  { destruct (visited_SI _ _ _ _ _ Hs HV) as (K & L & st & es & _ & HI). pose proof (s_pi _ _ _ _ _ _ _ _ HI) as HP.
    unfold prop_collect_garbage in E0. destruct (should_collect_garbage _); [|inversion E0; lia]. destruct (now_words _ _ _ _ _ HP E0) as [A1 _]. lia. }
  pose proof (vis_collect _ _ _ _ _ _ HV E0) as HV0.
  destruct (propagate dbg cx p0) as [[[cx1 p1] r1]| |] eqn:E1; cbn [bind] in E; try discriminate.
  assert (S1 : awords (p_long p1) = awords (p_long p0)) by (eapply propagate_size; exact E1).
  assert (X1 : st_conflicts (cx_stats cx1) = st_conflicts (cx_stats cx) /\ st_reductions (cx_stats cx1) = st_reductions (cx_stats cx)).
  { destruct (visited_SI _ _ _ _ _ Hs HV0) as (K & L & st & es & _ & HI). cbn [with_prop se_prop] in HI.
    destruct (propagate_ok _ _ dbg cx _ (s_pi _ _ _ _ _ _ _ _ HI)) as (cx2 & p2 & es1 & r2 & E2 & _ & _ & _ & _ & R). cbn [with_prop se_prop] in E2. rewrite E1 in E2. inversion E2; subst cx2 p2 r2.
    destruct r1 as [c1|]; [destruct R as [_ ->]; auto|destruct R as [_ ->]]. split; reflexivity. }
  destruct X1 as [X1 X2]. destruct r1 as [c1|].
  - destruct (Nat.eqb_spec (decision_level (p_trail p1)) 0) as [Z|Z].
    + inversion E; subst. cbn [se_prop]. change (p_long (p_set_unsat p1 true)) with (p_long p1). rewrite S1.
      cbn [bump_conflicts cx_with cx_stats st_conflicts st_reductions]. rewrite X1, X2. repeat split; lia.
    + destruct (analyze_conflict _ _ _ _ _ _) as [[[[cx3 an] p2] cb]| |] eqn:E2; cbn [bind] in E; try discriminate. inversion E; subst. cbn [se_prop].
      destruct (analyze_words select dbg F cx (with_prop se p0) _ _ _ _ _ _ _ Hs HV0 E1 ltac:(lia) E2) as (A1 & A2 & A3). fold m in A1.
      rewrite A2, A3, X1, X2. repeat split; lia.
  - destruct (pop_decision_var _ _) as [[ov vs]| |] eqn:E2; cbn [bind] in E; try discriminate. destruct ov as [v|].
    2:{ inversion E; subst. cbn [se_prop]. rewrite S1, X1, X2. repeat split; lia. }
    destruct (decide_phase _ _) as [l| |] eqn:E3; cbn [bind] in E; try discriminate. unfold assign_decision, assign in E.
    destruct (assign_raw _ _ _ _) as [[vv t]| |]; cbn [bind] in E; try discriminate. inversion E; subst. cbn [se_prop].
    cbn [bump_decisions cx_with cx_stats st_conflicts st_reductions]. rewrite X1, X2.
    match goal with |- context[awords (p_long ?q)] => change (p_long q) with (p_long p1) end. rewrite S1. repeat split; lia.
Qed.
