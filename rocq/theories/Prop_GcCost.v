(** C90: the work of garbage collection. *)
From Coq Require Import NArith List Bool Arith Lia Permutation ZifyN ZifyNat ZifyBool.
From Verif Require Import Model_Base Model_Lit Model_PartialAssignment Model_Header Model_Arena Model_MutScan Model_Prop
  Model_Heap Model_Vsids Model_Analysis Model_Luby Model_Solver Model_Cost Model_GcCost Spec Drivers_Arena Proof_Base Proof_PA Proof_Lit Proof_Arena Proof_ArenaHist
  Proof_Long Proof_Trail Proof_PropOps Proof_Backtrack Proof_Inv Proof_Propagate Proof_Gc Proof_Analysis Proof_Learn Proof_DB Proof_Reduce Proof_Solver Proof_Search Proof_Solve Proof_Add
  Drivers_Solver Drivers_Search Proof_Main Proof_Select Proof_Visited Proof_Cost Proof_Garbage Proof_Tables Prop_Width Examples_Solver Proof_Size Proof_GcCost Prop_Solver Prop_Memory.
Import ListNotations.

(** The words of the clause memory *)
Definition memory_words (s : solver) : nat := length (a_buffer (p_long (se_prop (sta_search (so_state s))))).
(** The words the long clauses of a formula need *)
Definition long_words (F : list (list N)) : nat := list_sum (map (fun c => if Nat.leb 3 (length c) then 3 + length c else 0) F).

(** [reach] with the work of all garbage collections so far and the number of
    search steps taken while the clause memory was empty *)
Inductive gc_reach (select : selection) (dbg : bool) : nat -> nat -> list (list N) -> solver -> Prop :=
| gr_built F s : built dbg F s -> gc_reach select dbg 0 0 F s
| gr_step w z F s r cx st k : gc_reach select dbg w z F s ->
    schedule_search_step_gc select dbg (so_ctx s) (so_state s) = Ret ((r, cx, st), k) ->
    gc_reach select dbg (w + k) (z + if Nat.eqb (memory_words s) 0 then 1 else 0) F (mkSolver cx st)
| gr_close_proof w z F s : gc_reach select dbg w z F s -> gc_reach select dbg w z F (solver_close_proof s)
| gr_add w z F s c s' : gc_reach select dbg w z F s -> valid_clause c -> watchable s c ->
    solver_add_clause dbg s c = Ret s' -> gc_reach select dbg w z (F ++ [c]) s'.

(** ** The counter does not change results *)
Theorem counted_collect dbg p p' :
  prop_collect_garbage dbg p = Ret p' <-> exists k, prop_collect_garbage_n dbg p = Ret (p', k).
Proof.
  rewrite <- er_collect. unfold erase. destruct (prop_collect_garbage_n dbg p) as [[q k]| |]; cbn [bind]; split.
  - intro E. inversion E; subst. eauto. - intros [k' E]. inversion E; subst. reflexivity.
  - discriminate. - intros [k E]. discriminate. - discriminate. - intros [k E]. discriminate.
Qed.
Lemma erased {A} (x : res (A * nat)) a : erase x = Ret a <-> exists k, x = Ret (a, k).
Proof.
  destruct x as [[q k]| |]; cbn; split.
  - intro E. inversion E; subst. eauto. - intros [k' E]. inversion E; subst. reflexivity.
  - discriminate. - intros [k E]. discriminate. - discriminate. - intros [k E]. discriminate.
Qed.
Theorem counted_schedule select dbg F s :
  reach select dbg F s <-> exists w z, gc_reach select dbg w z F s.
Proof.
  split.
  - induction 1 as [F s H|F s r cx st H (w & z & IH) E|F s H (w & z & IH)|F s c s' H (w & z & IH) Hc Hw E].
    + exists 0, 0. now apply gr_built.
    + rewrite <- er_schedule in E. apply erased in E as [k E]. do 2 eexists. eapply gr_step; eauto.
    + exists w, z. now apply gr_close_proof.
    + exists w, z. eapply gr_add; eauto.
  - intros (w & z & H). induction H as [F s H|w z F s r cx st k H IH E|w z F s H IH|w z F s c s' H IH Hc Hw E].
    + now apply reach_built. + eapply reach_step; eauto. rewrite <- er_schedule. apply erased. eauto.
    + now apply reach_close_proof. + eapply reach_add; eauto.
Qed.

(** ** The invariant *)
Lemma add_words dbg cx p h ls ad cx' p' : add_clause_verbatim dbg cx p h ls = Ret (ad, cx', p') ->
  awords (p_long p') = awords (p_long p) + (if Nat.leb 3 (length ls) then 3 + length ls else 0).
Proof.
  unfold add_clause_verbatim. intro H. destruct ls as [|a [|b [|c r]]]; cbn [length Nat.leb].
  - inversion H; subst. unfold awords. cbn. lia.
  - destruct (pa_is_false _ _) as [[]| |]; cbn [bind] in H; try discriminate; [inversion H; subst; unfold awords; cbn; lia|].
    unfold assign in H. destruct (assign_raw _ _ _ _) as [[v t]| |]; cbn [bind] in H; try discriminate. inversion H; subst. unfold awords. cbn. lia.
  - destruct (bin_add _ _ _); cbn [bind] in H; try discriminate. inversion H; subst. unfold awords. cbn. lia.
  - destruct (long_add_clause _ _ _) as [[[o|] a']| |] eqn:E; cbn [bind] in H; try discriminate.
    destruct (watch_clause _ _ _ _); cbn [bind] in H; try discriminate. inversion H; subst. cbn [p_long p_set_watches p_set_long].
    unfold long_add_clause, arena_add_clause in E. destruct (negb _); [|discriminate]. destruct (_ || _); inversion E; subst.
    unfold awords. cbn [a_buffer]. rewrite !app_length, ?map_length. cbn [lh_words length]. lia.
Qed.
Lemma solver_add_words dbg s c s' : solver_add_clause dbg s c = Ret s' ->
  let p := se_prop (sta_search (so_state s)) in let p' := se_prop (sta_search (so_state s')) in
  awords (p_long p') = awords (p_long p) + (if Nat.leb 3 (length c) then 3 + length c else 0) /\ dirty p' = dirty p /\
  st_conflicts (cx_stats (so_ctx s')) = st_conflicts (cx_stats (so_ctx s)) /\ st_reductions (cx_stats (so_ctx s')) = st_reductions (cx_stats (so_ctx s)).
Proof.
  intros E p p'. assert (D : dirty p' = dirty p) by (unfold dirty, p, p'; destruct (solver_add_garbage _ _ _ _ E) as [Q _]; rewrite <- Q; reflexivity).
  split; [|split; [exact D|]].
  - unfold p, p'. unfold solver_add_clause, search_resize in E. destruct (st_vars _ <? _).
    + destruct (vsids_resize _ _); cbn [bind] in E; try discriminate. destruct (add_clause_verbatim _ _ _ _ _) as [[[ad cx2] p1]| |] eqn:E1; cbn [bind] in E; try discriminate.
      inversion E; subst. apply add_words in E1. exact E1.
    + cbn [bind] in E. destruct (add_clause_verbatim _ _ _ _ _) as [[[ad cx2] p1]| |] eqn:E1; cbn [bind] in E; try discriminate. inversion E; subst. apply add_words in E1. exact E1.
  - unfold solver_add_clause, search_resize in E.
    assert (Q : forall cx q ad cx2 p1, add_clause_verbatim dbg cx q lh_new_input c = Ret (ad, cx2, p1) -> st_conflicts (cx_stats cx2) = st_conflicts (cx_stats cx) /\ st_reductions (cx_stats cx2) = st_reductions (cx_stats cx)).
    { intros cx q ad cx2 p1 H. unfold add_clause_verbatim in H. destruct c as [|x [|y [|d r]]].
      - inversion H; subst; auto.
      - destruct (pa_is_false _ _) as [[]| |]; cbn [bind] in H; try discriminate; [inversion H; subst; auto|].
        unfold assign in H. destruct (assign_raw _ _ _ _) as [[v t]| |]; cbn [bind] in H; try discriminate. inversion H; subst; auto.
      - destruct (bin_add _ _ _); cbn [bind] in H; try discriminate. inversion H; subst; auto.
      - destruct (long_add_clause _ _ _) as [[[o|] a']| |] eqn:El; cbn [bind] in H; try discriminate.
        destruct (watch_clause _ _ _ _); cbn [bind] in H; try discriminate. inversion H; subst; auto. }
    destruct (st_vars _ <? _).
    + destruct (vsids_resize _ _); cbn [bind] in E; try discriminate. destruct (add_clause_verbatim _ _ _ _ _) as [[[ad cx2] p1]| |] eqn:E1; cbn [bind] in E; try discriminate.
      inversion E; subst. apply Q in E1. exact E1.
    + cbn [bind] in E. destruct (add_clause_verbatim _ _ _ _ _) as [[[ad cx2] p1]| |] eqn:E1; cbn [bind] in E; try discriminate. inversion E; subst. apply Q in E1. exact E1.
Qed.
Lemma reduce_counts select cx se cx' se' : reduce select cx se = Ret (cx', se') ->
  st_reductions (cx_stats cx') = S (st_reductions (cx_stats cx)) /\ st_conflicts (cx_stats cx') = st_conflicts (cx_stats cx).
Proof.
  unfold reduce. intro E.
  destruct (protect_clauses true _ _) as [a1| |]; cbn [bind] in E; try discriminate.
  destruct (candidates_loop _ _ _ _) as [[a2 cands]| |]; cbn [bind] in E; try discriminate.
  destruct (match cands with [] => _ | _ :: _ => _ end) as [[cx2 a3]| |] eqn:E3; cbn [bind] in E; try discriminate.
  destruct (protect_clauses false _ _) as [a4| |]; cbn [bind] in E; try discriminate.
  inversion E; subst. clear E.
  set (Q := fun s : ctx * arena => st_reductions (cx_stats (fst s)) = S (st_reductions (cx_stats cx)) /\ st_conflicts (cx_stats (fst s)) = st_conflicts (cx_stats cx)).
  assert (Q0 : Q (bump_reductions cx, a2)) by (unfold Q; cbn; lia).
  change (Q (cx', a3)). destruct cands as [|x r]; [inversion E3; subst; exact Q0|].
  destruct (select _ _) as [[lo m] hi].
  refine (foldM_inv Q _ _ _ _ _ E3 Q0). clear.
  intros [cx0 a0] y [cx3 a5] Ed HS. unfold Q, delete_candidate in *. cbn [fst] in *. destruct (Nat.ltb _ _); [|discriminate].
  destruct (match cx_proof _ with Some _ => _ | None => _ end) as [cx4| |] eqn:E4; cbn [bind] in Ed; try discriminate.
  destruct (long_delete _ _); cbn [bind] in Ed; try discriminate. inversion Ed; subst.
  destruct (cx_proof _); [destruct (long_lits _ _); cbn [bind] in E4; try discriminate|]; inversion E4; subst; [|exact HS].
  unfold cx_log, cx_with; cbn [cx_stats cx_proof]. destruct (cx_proof cx0); exact HS.
Qed.

Definition GI (w z : nat) (F : list (list N)) (s : solver) : Prop :=
  let p := se_prop (sta_search (so_state s)) in let m := cnf_vars F + unit_clauses F in
  exists c, w + 6 * awords (p_long p) <= 6 * (long_words F + st_conflicts (cx_stats (so_ctx s)) * (m + 3)) + c * (3 * m + 1) /\
    c + dirty p <= st_reductions (cx_stats (so_ctx s)) + z.
Lemma long_words_snoc F c : long_words (F ++ [c]) = long_words F + (if Nat.leb 3 (length c) then 3 + length c else 0).
Proof. unfold long_words. rewrite map_app, list_sum_app. cbn [map list_sum fold_right]. lia. Qed.
Lemma vars_mono F c : cnf_vars F + unit_clauses F <= cnf_vars (F ++ [c]) + unit_clauses (F ++ [c]).
Proof. rewrite cnf_vars_snoc. unfold unit_clauses. rewrite filter_app, app_length. lia. Qed.
Lemma add_GI dbg w z F s c s' : solver_add_clause dbg s c = Ret s' -> GI w z F s -> GI w z (F ++ [c]) s'.
Proof.
  intros E (k & H1 & H2). apply solver_add_words in E as (A1 & A2 & A3 & A4). unfold GI. exists k. rewrite A1, A2, A3, A4, long_words_snoc. split; [|exact H2].
  pose proof (vars_mono F c) as M. set (m := cnf_vars F + unit_clauses F) in *. set (m' := cnf_vars (F ++ [c]) + unit_clauses (F ++ [c])) in *. clearbody m m'.
  set (q := if Nat.leb 3 (length c) then 3 + length c else 0) in *.
  assert (k * (3 * m + 1) <= k * (3 * m' + 1)) by (apply Nat.mul_le_mono_l; lia).
  assert (st_conflicts (cx_stats (so_ctx s)) * (m + 3) <= st_conflicts (cx_stats (so_ctx s)) * (m' + 3)) by (apply Nat.mul_le_mono_l; lia). lia.
Qed.
Lemma gc_reach_GI select dbg w z F s : anysel select -> gc_reach select dbg w z F s -> GI w z F s.
Proof.
  intros Hs H. induction H as [F s H|w z F s r cx st k H IH E|w z F s H IH|w z F s c s' H IH Hc Hw E].
  - induction H as [|F s c s' HB IH Hc E|F s HB IH|F s HB IH]; auto.
    + exists 0. cbn. lia.
    + eapply add_GI; eauto.
  - assert (HR : reach select dbg F s) by (apply counted_schedule; eauto). pose proof (vis_solver _ _ _ _ HR) as HV. pose proof (reach_J _ _ _ _ Hs HR) as HJ.
    unfold schedule_search_step_gc in E. destruct (should_restart _ _) as [dr sc1].
    apply bindC_ret in E as ([cx1 se1] & k1 & k2 & E1 & E & ->). apply units_ret in E1 as [E1 ->].
    destruct (should_reduce cx1 sc1) as [dd sc2].
    apply bindC_ret in E as ([cx2 se2] & k3 & k4 & E2 & E & ->). apply units_ret in E2 as [E2 ->].
    apply bindC_ret in E as ([[r3 cx3] se3] & k5 & k6 & E3 & E & ->). inversion E; subst. clear E.
    destruct IH as (c & H1 & H2). set (p := se_prop (sta_search (so_state s))) in *. set (m := cnf_vars F + unit_clauses F) in *.
    assert (Q1 : visited select dbg F cx1 se1 /\ J cx1 (se_prop se1) /\ p_long (se_prop se1) = p_long p /\
      st_conflicts (cx_stats cx1) = st_conflicts (cx_stats (so_ctx s)) /\ st_reductions (cx_stats cx1) = st_reductions (cx_stats (so_ctx s))).
    { destruct dr; [|inversion E1; subst; auto]. split; [eapply vis_restart; eauto|]. split; [eapply restart_J; eauto|]. split; [eapply restart_size; eauto|].
      unfold restart in E1. destruct (Nat.ltb 0 _); [destruct (backtrack_to_level _ _ _ _) as [[? ?]| |]; cbn [bind] in E1; try discriminate|]; inversion E1; subst; cbn; auto. }
    destruct Q1 as (V1 & J1 & P1 & C1 & R1).
    assert (Q2 : visited select dbg F cx2 se2 /\ J cx2 (se_prop se2) /\ awords (p_long (se_prop se2)) = awords (p_long p) /\
      st_conflicts (cx_stats cx2) = st_conflicts (cx_stats (so_ctx s)) /\ st_reductions (cx_stats (so_ctx s)) + dirty (se_prop se2) <= st_reductions (cx_stats cx2) + dirty p).
    { destruct dd.
      - destruct (reduce select cx1 se1) as [[cx5 se5]| |] eqn:E5; cbn [bind] in E2; try discriminate. destruct (report dbg cx5); cbn [bind] in E2; try discriminate. inversion E2; subst.
        split; [eapply vis_reduce; eauto|]. split; [eapply reduce_J; eauto|]. split; [rewrite (reduce_size _ _ _ _ _ E5), P1; reflexivity|].
        apply reduce_counts in E5 as [X1 X2]. split; [lia|]. assert (dirty (se_prop se2) <= 1) by (unfold dirty; destruct (Nat.eqb _ 0); lia). lia.
      - inversion E2; subst. assert (D : dirty (se_prop se2) = dirty p) by (unfold dirty; rewrite P1; reflexivity). rewrite P1, D. split; auto. split; auto. split; auto. split; auto. lia. }
    destruct Q2 as (V2 & J2 & P2 & C2 & R2).
    destruct (step_acct _ _ _ _ _ _ _ _ _ Hs V2 J2 E3) as (d & A1 & A2 & A3 & A4). fold m in A1. unfold GI. cbn [so_state so_ctx sta_search]. fold m. exists (c + d).
    rewrite P2 in A1. rewrite C2 in A1, A4.
    assert (B : bare (se_prop se2) = if Nat.eqb (memory_words s) 0 then 1 else 0) by (unfold bare; rewrite P2; reflexivity). rewrite B in A2.
    split; [|rewrite A3; lia]. rewrite Nat.mul_add_distr_r. lia.
  - exact IH.
  - eapply add_GI; eauto.
Qed.

(** ** Formulas without clauses of two or more literals *)
Lemma tot_none {A} (ls : list (list A)) i x : tot ls = 0 -> vget ls i = Ret x -> x = [].
Proof.
  unfold vget. intros H E. destruct (nth_error ls i) as [y|] eqn:Ey; [|discriminate]. inversion E; subst y. apply nth_error_split in Ey as (l1 & l2 & -> & _).
  rewrite tot_app, tot_cons in H. destruct x; [reflexivity|cbn [length] in H; lia].
Qed.
Lemma literal_none dbg p l p' r : tot (p_binary p) = 0 -> tw (p_watches p) = 0 -> propagate_literal dbg p l = Ret (p', r) ->
  r = None /\ tot (p_binary p') = 0 /\ tw (p_watches p') = 0 /\ p_trail p' = p_trail p /\ p_unsat p' = p_unsat p.
Proof.
  intros Hb Hw E. destruct (literal_tw _ _ _ _ _ E) as [T1 T2]. unfold propagate_literal, propagate_binary_clauses in E. destruct (bin_containing _ _) as [os| |] eqn:E1; cbn [bind] in E; try discriminate.
  unfold bin_containing in E1. rewrite (tot_none _ _ _ Hb E1) in E. cbn [binary_loop bind] in E. unfold propagate_long_clauses in E.
  destruct (watches_take _ _ _) as [[wl ws]| |] eqn:E2; cbn [bind] in E; try discriminate. pose proof (take_tw _ _ _ _ _ E2) as T. destruct wl as [|x wl]; [|cbn [length] in T; lia].
  cbn [scan_list bind] in E. destruct (watches_restore _ _ _ _) as [w2| |]; cbn [bind] in E; try discriminate. inversion E; subst. rewrite T2. split; [reflexivity|]. split; [exact Hb|]. split; [lia|]. split; reflexivity.
Qed.
Lemma loop_none dbg fuel : forall p p' r, tot (p_binary p) = 0 -> tw (p_watches p) = 0 -> propagate_loop fuel dbg p = Ret (p', r) ->
  r = None /\ t_steps (p_trail p') = t_steps (p_trail p) /\ p_unsat p' = p_unsat p.
Proof.
  induction fuel as [|f IH]; intros p p' r Hb Hw E; [discriminate|]. cbn [propagate_loop] in E. destruct (next_unpropagated_lit _) as [l|]; [|inversion E; subst; auto].
  destruct (propagate_literal dbg p l) as [[p1 r1]| |] eqn:E1; cbn [bind] in E; try discriminate. apply literal_none in E1 as (-> & B1 & W1 & T1 & U1); auto.
  destruct (advance_propagated _ _) as [t| |] eqn:E2; cbn [bind] in E; try discriminate. apply IH in E; [|exact B1|exact W1]. destruct E as (-> & A & B). split; [reflexivity|]. rewrite A, B. cbn [p_set_trail p_trail p_unsat].
  split; [|exact U1]. unfold advance_propagated, dassert in E2. rewrite T1 in E2. destruct (dbg && _); inversion E2; reflexivity.
Qed.
Lemma propagate_none dbg cx p cx' p' r : ws_enabled (p_watches p) = true -> tot (p_binary p) = 0 -> tw (p_watches p) = 0 -> propagate dbg cx p = Ret (cx', p', r) ->
  r = None /\ length (t_steps (p_trail p')) = length (t_steps (p_trail p)) /\ p_unsat p' = p_unsat p.
Proof.
  unfold propagate, enable_watch_lists. intros He Hb Hw E. rewrite He in E. cbn [Bool.eqb bind] in E. destruct (propagate_loop _ _ _) as [[p1 r1]| |] eqn:E1; cbn [bind] in E; try discriminate.
  apply loop_none in E1 as (-> & A & B); auto. rewrite <- A, <- B. inversion E; subst. auto.
Qed.

Record plain (s : solver) : Prop := {
  pl_aw : awords (p_long (se_prop (so_se s))) = 0;
  pl_bin : st_binary (cx_stats (so_ctx s)) = 0;
  pl_us : p_unsat (se_prop (so_se s)) = false;
  pl_cf : st_conflicts (cx_stats (so_ctx s)) = 0;
  pl_rd : (sc_next_reduce (so_sc s) = 0%N /\ sc_reductions (so_sc s) = 0%N /\ st_reductions (cx_stats (so_ctx s)) = 0) \/
          ((0 < sc_next_reduce (so_sc s))%N /\ st_reductions (cx_stats (so_ctx s)) = 1) }.

Lemma step_plain select dbg F cx se r cx' se' k : anysel select -> visited select dbg F cx se -> J cx (se_prop se) ->
  awords (p_long (se_prop se)) = 0 -> st_binary (cx_stats cx) = 0 -> p_unsat (se_prop se) = false ->
  search_step_gc dbg cx se = Ret ((r, cx', se'), k) ->
  2 * cnf_vars F <= k /\ length (t_steps (p_trail (se_prop se'))) <= S (length (t_steps (p_trail (se_prop se)))) /\
  awords (p_long (se_prop se')) = 0 /\ st_binary (cx_stats cx') = 0 /\ p_unsat (se_prop se') = false /\
  st_conflicts (cx_stats cx') = st_conflicts (cx_stats cx) /\ st_reductions (cx_stats cx') = st_reductions (cx_stats cx).
Proof.
  intros Hs HV HJ Ha Hb Hu E. unfold search_step_gc in E. rewrite Hu in E.
  apply bindC_ret in E as (p0 & k0 & k1 & E0 & E & ->). apply units_ret in E as [E ->].
  assert (E0' : prop_collect_garbage dbg (se_prop se) = Ret p0) by (rewrite <- er_collect, E0; reflexivity).
  destruct (visited_SI _ _ _ _ _ Hs HV) as (K & L & st & es & _ & HI). pose proof (s_pi _ _ _ _ _ _ _ _ HI) as HP.
  destruct (collect_J dbg cx _ _ _ _ HP E0' HJ) as [[J1 J2] He]. pose proof (prop_collect_size _ _ _ E0') as S0.
  assert (C : 2 * cnf_vars F <= k0 /\ length (t_steps (p_trail p0)) = length (t_steps (p_trail (se_prop se))) /\ p_unsat p0 = false).
  { unfold prop_collect_garbage_n, should_collect_garbage in E0. unfold awords in Ha. rewrite Ha in E0. cbn [Nat.leb] in E0. pose proof (now_cost _ _ _ _ E0) as [C _].
    rewrite (pi_wl _ _ _ _ HP) in C. split; [lia|]. assert (X : collect_garbage_now dbg (se_prop se) = Ret p0) by (rewrite <- er_now, E0; reflexivity).
    destruct (collect_ok _ _ dbg _ HP) as [[Y _]|(gaps & a' & es' & w' & Y & _)]; rewrite X in Y; inversion Y; subst. cbn [p_trail gc_trail t_steps p_unsat]. rewrite map_length. auto. }
  destruct C as (C1 & C2 & C3).
  destruct (propagate dbg cx p0) as [[[cx1 p1] r1]| |] eqn:E1; try discriminate. cbn [bind] in E.
  assert (T0 : tw (p_watches p0) = 0) by lia. assert (B0 : tot (p_binary p0) = 0) by lia.
  destruct (propagate_none _ _ _ _ _ _ He B0 T0 E1) as (-> & P1 & P2). pose proof (propagate_size _ _ _ _ _ _ E1) as S1.
  assert (X : st_binary (cx_stats cx1) = st_binary (cx_stats cx) /\ st_conflicts (cx_stats cx1) = st_conflicts (cx_stats cx) /\ st_reductions (cx_stats cx1) = st_reductions (cx_stats cx)).
  { pose proof (vis_collect _ _ _ _ _ _ HV E0') as HV0. destruct (visited_SI _ _ _ _ _ Hs HV0) as (K0 & L0 & st0 & es0 & _ & HI0). cbn [with_prop se_prop] in HI0.
    destruct (propagate_ok _ _ dbg cx _ (s_pi _ _ _ _ _ _ _ _ HI0)) as (cx2 & p2 & es1 & r2 & E2 & _ & _ & _ & _ & R). cbn [with_prop se_prop] in E2. rewrite E1 in E2. inversion E2; subst cx2 p2 r2.
    destruct R as [_ ->]. repeat split; reflexivity. }
  destruct X as (X1 & X2 & X3).
  destruct (pop_decision_var _ _) as [[ov vs]| |] eqn:E2; try discriminate. cbn [bind] in E. destruct ov as [v|].
  2:{ inversion E; subst. cbn [se_prop]. rewrite P2. repeat split; auto; lia. }
  destruct (decide_phase _ _) as [l| |] eqn:E3; try discriminate. cbn [bind] in E. unfold assign_decision, assign in E.
  destruct (assign_raw _ _ _ _) as [[vv t]| |] eqn:E4; cbn [bind] in E; try discriminate. inversion E; subst. clear E.
  assert (Q : length (t_steps t) = S (length (t_steps (p_trail p1)))).
  { unfold assign_raw, dassert in E4. destruct (vset _ _ _); cbn [bind] in E4; try discriminate. destruct (pa_is_assigned _ _); cbn [bind] in E4; try discriminate.
    destruct (dbg && _); try discriminate. destruct (pa_assign _ _) as [v5| |]; cbn [bind] in E4; try discriminate. inversion E4; subst. cbn [t_steps p_trail p_set_trail]. rewrite app_length. cbn [length]. lia. }
  cbn [se_prop bump_decisions cx_with cx_stats st_conflicts st_reductions st_binary].
  change (2 * cnf_vars F <= k0 + 0 /\ length (t_steps t) <= S (length (t_steps (p_trail (se_prop se)))) /\ awords (p_long p1) = 0 /\ st_binary (cx_stats cx1) = 0 /\ p_unsat p1 = false /\
    st_conflicts (cx_stats cx1) = st_conflicts (cx_stats cx) /\ st_reductions (cx_stats cx1) = st_reductions (cx_stats cx)).
  rewrite P2. repeat split; auto; lia.
Qed.
Lemma schedule_plain select dbg F s r cx st k : anysel select -> reach select dbg F s -> plain s ->
  schedule_search_step_gc select dbg (so_ctx s) (so_state s) = Ret ((r, cx, st), k) ->
  plain (mkSolver cx st) /\ 2 * cnf_vars F <= k /\
  length (t_steps (p_trail (se_prop (sta_search st)))) <= S (length (t_steps (p_trail (se_prop (so_se s))))).
Proof.
  intros Hs HR [P1 P2 P3 P4 P5] E. pose proof (vis_solver _ _ _ _ HR) as HV. pose proof (reach_J _ _ _ _ Hs HR) as HJ.
  unfold schedule_search_step_gc in E.
  assert (QR : let '(dr, sc1) := should_restart (so_ctx s) (so_sc s) in sc_next_reduce sc1 = sc_next_reduce (so_sc s) /\ sc_reductions sc1 = sc_reductions (so_sc s)).
  { unfold should_restart. destruct (_ <=? _)%N; [|auto]. destruct (luby_wide_advance _). auto. }
  destruct (should_restart _ _) as [dr sc1]. destruct QR as [QR1 QR2].
  apply bindC_ret in E as ([cx1 se1] & k1 & k2 & E1 & E & ->). apply units_ret in E1 as [E1 ->].
  assert (Q1 : visited select dbg F cx1 se1 /\ J cx1 (se_prop se1) /\ p_long (se_prop se1) = p_long (se_prop (so_se s)) /\
      cx_stats cx1 = (if dr then cx_stats (bump_restarts (so_ctx s)) else cx_stats (so_ctx s)) /\ p_unsat (se_prop se1) = p_unsat (se_prop (so_se s)) /\
      length (t_steps (p_trail (se_prop se1))) <= length (t_steps (p_trail (se_prop (so_se s))))).
  { destruct dr; [|inversion E1; subst; auto 10]. split; [eapply vis_restart; eauto|]. split; [eapply restart_J; eauto|]. split; [eapply restart_size; eauto|].
    unfold restart in E1. destruct (Nat.ltb 0 _); [destruct (backtrack_to_level _ _ _ _) as [[p3 cb3]| |] eqn:E3; cbn [bind] in E1; try discriminate|]; inversion E1; subst; cbn [se_prop]; auto.
    split; [reflexivity|]. unfold backtrack_to_level in E3. repeat (match type of E3 with
      | bind ?x _ = _ => destruct x as [?| |]; cbn [bind] in E3; try discriminate
      | (let '(_, _) := ?x in _) = _ => destruct x
      | (if ?x then _ else _) = _ => destruct x; try discriminate
      | match ?x with Some _ => _ | None => _ end = _ => destruct x; try discriminate
      end); inversion E3; subst; cbn; rewrite ?firstn_length; (split; [reflexivity|lia]). }
  destruct Q1 as (V1 & J1 & L1 & C1 & U1 & T1).
  assert (B1 : st_binary (cx_stats cx1) = 0 /\ st_conflicts (cx_stats cx1) = 0 /\ st_reductions (cx_stats cx1) = st_reductions (cx_stats (so_ctx s))).
  { rewrite C1. destruct dr; cbn; auto. }
  clear C1. destruct B1 as (B1 & C1 & R1).
  unfold should_reduce in E. rewrite C1 in E. change (N.of_nat 0) with 0%N in E.
  destruct (sc_next_reduce sc1 <=? 0)%N eqn:Er.
  - apply N.leb_le in Er. destruct P5 as [(A1 & A2 & A3)|[A1 _]]; [|exfalso; rewrite <- QR1 in A1; lia].
    apply bindC_ret in E as ([cx2 se2] & k3 & k4 & E2 & E & ->). apply units_ret in E2 as [E2 ->].
    apply bindC_ret in E as ([[r3 cx3] se3] & k5 & k6 & E3 & E & ->). inversion E; subst. clear E.
    destruct (reduce select cx1 se1) as [[cx5 se5]| |] eqn:E5; cbn [bind] in E2; try discriminate. destruct (report dbg cx5); cbn [bind] in E2; try discriminate. inversion E2; subst.
    pose proof (vis_reduce _ _ _ _ _ _ _ V1 E5) as V2. pose proof (reduce_J _ _ _ _ _ E5 J1) as J2. pose proof (reduce_size _ _ _ _ _ E5) as S2. rewrite L1 in S2.
    pose proof (reduce_unsat _ _ _ _ _ E5) as U2. destruct (reduce_counts _ _ _ _ _ E5) as [RC1 RC2].
    assert (T2 : p_trail (se_prop se2) = p_trail (se_prop se1) /\ st_binary (cx_stats cx2) = 0).
    { split.
      - unfold reduce in E5. repeat (match type of E5 with
          | bind ?x _ = _ => destruct x as [?| |]; cbn [bind] in E5; try discriminate
          | (let '(_, _) := ?x in _) = _ => destruct x
          end); inversion E5; reflexivity.
      - clear - E5 B1. unfold reduce in E5.
        destruct (protect_clauses true _ _) as [a1| |]; cbn [bind] in E5; try discriminate.
        destruct (candidates_loop _ _ _ _) as [[a2 cands]| |]; cbn [bind] in E5; try discriminate.
        destruct (match cands with [] => _ | _ :: _ => _ end) as [[cx2' a3]| |] eqn:E3; cbn [bind] in E5; try discriminate.
        destruct (protect_clauses false _ _) as [a4| |]; cbn [bind] in E5; try discriminate. inversion E5; subst.
        destruct cands as [|x r]; [inversion E3; subst; exact B1|].
        destruct (select _ _) as [[lo m] hi]. change (st_binary (cx_stats (fst (cx2, a3))) = 0).
        refine (foldM_inv (fun s => st_binary (cx_stats (fst s)) = 0) _ _ _ _ _ E3 B1).
        intros [cx0 a0] y [cx3 a5] Ed HS. unfold delete_candidate in Ed. cbn [fst] in *. destruct (Nat.ltb _ _); [|discriminate].
        destruct (match cx_proof _ with Some _ => _ | None => _ end) as [cx4| |] eqn:E4; cbn [bind] in Ed; try discriminate.
        destruct (long_delete _ _); cbn [bind] in Ed; try discriminate. inversion Ed; subst.
        destruct (cx_proof _); [|inversion E4; exact HS]. destruct (long_lits _ _); cbn [bind] in E4; try discriminate. inversion E4; subst.
        unfold cx_log, cx_with; cbn [cx_stats cx_proof]. destruct (cx_proof cx0); exact HS. }
    destruct T2 as [T2 B2].
    destruct (step_plain _ _ _ _ _ _ _ _ _ Hs V2 J2 ltac:(lia) B2 ltac:(congruence) E3) as (D1 & D2 & D3 & D4 & D5 & D6 & D7).
    split; [|split; [lia|cbn [sta_search]; rewrite T2 in D2; lia]].
    constructor; cbn [so_state so_ctx sta_search sta_schedule sc_next_reduce]; auto; try lia. right. rewrite QR1, QR2, A1, A2. split; [vm_compute; reflexivity|lia].
  - apply N.leb_gt in Er. destruct P5 as [(A1 & _)|[A1 A2]]; [exfalso; rewrite <- QR1 in A1; lia|].
    apply bindC_ret in E as ([cx2 se2] & k3 & k4 & E2 & E & ->). apply units_ret in E2 as [E2 ->]. inversion E2; subst.
    apply bindC_ret in E as ([[r3 cx3] se3] & k5 & k6 & E3 & E & ->). inversion E; subst. clear E.
    destruct (step_plain _ _ _ _ _ _ _ _ _ Hs V1 J1 ltac:(rewrite L1; lia) B1 ltac:(congruence) E3) as (D1 & D2 & D3 & D4 & D5 & D6 & D7).
    split; [|split; [lia|cbn [sta_search]; lia]].
    constructor; cbn [so_state so_ctx sta_search sta_schedule sc_next_reduce]; auto; lia.
Qed.

Lemma assigned_length n ss : all_assigned n ss -> n <= length ss.
Proof.
  intro H. rewrite <- (seq_length n 0), <- (map_length (fun s => vidx (s_lit s)) ss). apply NoDup_incl_length; [apply seq_NoDup|].
  intros i Hi. apply in_seq in Hi. set (l := (2 * N.of_nat i)%N). assert (Hv : vidx l = i) by (unfold l; rewrite vidx_div; lia).
  destruct (H l ltac:(lia)) as [G|G]; apply in_map_iff in G as (s & E & G); apply in_map_iff; exists s; (split; [|exact G]); rewrite E; rewrite ?vidx_neg; exact Hv.
Qed.
Lemma solve_grows select dbg F fuel : anysel select -> forall s b s' w z, gc_reach select dbg w z F s -> plain s -> solve select dbg fuel s = Ret (b, s') ->
  plain s' /\ exists w' z', gc_reach select dbg w' z' F s' /\
    w + 2 * cnf_vars F * length (t_steps (p_trail (se_prop (so_se s')))) <= w' + 2 * cnf_vars F * length (t_steps (p_trail (se_prop (so_se s)))).
Proof.
  intro Hs. induction fuel as [|f IH]; intros s b s' w z HG HP E; [discriminate|]. cbn [solve] in E.
  assert (HR : reach select dbg F s) by (apply counted_schedule; eauto).
  destruct (schedule_search_step select dbg (so_ctx s) (so_state s)) as [[[r cx] st]| |] eqn:E1; cbn [bind] in E; try discriminate.
  rewrite <- er_schedule in E1. apply erased in E1 as [k E1]. destruct (schedule_plain _ _ _ _ _ _ _ _ Hs HR HP E1) as (P1 & K1 & T1).
  pose proof (gr_step _ _ _ _ _ _ _ _ _ _ HG E1) as HG1.
  assert (X : w + 2 * cnf_vars F * length (t_steps (p_trail (se_prop (sta_search st)))) <= w + k + 2 * cnf_vars F * length (t_steps (p_trail (se_prop (so_se s))))).
  { assert (2 * cnf_vars F * length (t_steps (p_trail (se_prop (sta_search st)))) <= 2 * cnf_vars F * S (length (t_steps (p_trail (se_prop (so_se s)))))) by (apply Nat.mul_le_mono_l; exact T1). lia. }
  destruct r as [b1|].
  - destruct (report dbg cx); cbn [bind] in E; try discriminate. inversion E; subst. split; [exact P1|]. exists (w + k), (z + if Nat.eqb (memory_words s) 0 then 1 else 0). split; [exact HG1|exact X].
  - destruct (IH _ _ _ _ _ HG1 P1 E) as (P2 & w' & z' & HG2 & Y). split; [exact P2|]. exists w', z'. split; [exact HG2|]. cbn [so_state] in Y. lia.
Qed.

(** A formula with a single unit clause, for the variable [i] *)
Definition one_unit (i : nat) : list (list N) := [[(2 * N.of_nat i)%N]].
Lemma unit_clause_shape i l : l = (2 * N.of_nat i)%N -> (N.of_nat i < 2 ^ 30)%N ->
  valid_clause [l] /\ vidx l = i /\ clause_var_count [l] = S i.
Proof.
  change (2 ^ 30)%N with 1073741824%N. intros Hl Hi.
  assert (Hx : vidx l = i) by (rewrite vidx_div; lia).
  split; [|split; [exact Hx|]].
  - intros x [<-|[]]. unfold valid. lia.
  - unfold clause_var_count. cbn [fold_right]. rewrite Hx. lia.
Qed.
Lemma unit_added_gen dbg s l s' : solver_add_clause dbg s [l] = Ret s' ->
  st_vars (cx_stats (so_ctx s)) < clause_var_count [l] ->
  pa_is_false (p_values (prop_resize (se_prop (so_se s)) (clause_var_count [l]))) l = Ret false ->
  st_binary (cx_stats (so_ctx s')) = st_binary (cx_stats (so_ctx s)) /\ p_unsat (se_prop (so_se s')) = p_unsat (se_prop (so_se s)) /\
  length (t_steps (p_trail (se_prop (so_se s')))) = length (t_steps (p_trail (se_prop (so_se s)))) + 1 /\ so_sc s' = so_sc s.
Proof.
  destruct s as [cx [se sc]]. cbn [so_ctx so_state sta_search sta_schedule]. intros E Hv Hf. unfold solver_add_clause in E. cbv zeta in E. cbn [so_ctx so_state sta_search sta_schedule] in E.
  rewrite (proj2 (Nat.ltb_lt _ _) Hv) in E. unfold search_resize in E. destruct (vsids_resize _ _); cbn [bind] in E; try discriminate.
  unfold add_clause_verbatim in E. cbn [se_prop] in E. rewrite Hf in E. cbn [bind] in E. unfold assign, assign_raw, dassert in E.
  destruct (vset _ _ _); cbn [bind] in E; try discriminate. destruct (pa_is_assigned _ _); cbn [bind] in E; try discriminate.
  destruct (dbg && _); try discriminate. destruct (pa_assign _ _); cbn [bind] in E; try discriminate. injection E as E. rewrite <- E.
  split; [reflexivity|]. split; [reflexivity|]. split; [|reflexivity]. cbn [so_state sta_search se_prop p_set_vt p_trail t_steps]. rewrite app_length. reflexivity.
Qed.
Lemma unit_added_shape dbg i l s : vidx l = i -> clause_var_count [l] = S i -> solver_add_clause dbg solver_new [l] = Ret s ->
  st_binary (cx_stats (so_ctx s)) = 0 /\ p_unsat (se_prop (so_se s)) = false /\ length (t_steps (p_trail (se_prop (so_se s)))) = 1 /\ so_sc s = schedule_empty.
Proof.
  intros Hx Hc E. assert (Hf : pa_is_false (pa_resize [] (S i)) l = Ret false).
  { rewrite (VR_false (S i) (pa_resize [] (S i)) [] l); [reflexivity|apply (VR_resize 0 (S i) [] []); [apply VR_empty|lia]|lia]. }
  apply unit_added_gen in E; [exact E|rewrite Hc; apply Nat.lt_0_succ|rewrite Hc; exact Hf].
Qed.
Lemma unit_added dbg l : valid_clause [l] -> exists s, solver_add_clause dbg solver_new [l] = Ret s.
Proof.
  intro Hv. destruct (add_clause_accepts_partial dbg [] solver_new [l] (built_new _) Hv) as [H|[[_ [G|G]]|(_ & (l0 & _ & []) & _)]]; [exact H| |].
  - exfalso. unfold arena_full in G. change (arena_words solver_new) with 0 in G. change (2 ^ 32)%N with 4294967296%N in G. lia.
  - exfalso. change (length [l]) with 1 in G. change (2 ^ 31)%N with 2147483648%N in G. lia.
Qed.
Lemma one_unit_built dbg i : (N.of_nat i < 2 ^ 30)%N -> exists s, built dbg (one_unit i) s /\ plain s /\ length (t_steps (p_trail (se_prop (so_se s)))) = 1.
Proof.
  intro Hi. remember (2 * N.of_nat i)%N as l eqn:Hl. destruct (unit_clause_shape i l Hl Hi) as (Hv & Hx & Hc).
  destruct (unit_added dbg l Hv) as [s E]. destruct (unit_added_shape dbg i l s Hx Hc E) as (Q1 & Q2 & Q3 & Q4).
  exists s. split. { unfold one_unit. rewrite <- Hl. eapply (built_add _ [] solver_new [l]); eauto; apply built_new. }
  split; [|exact Q3]. destruct (solver_add_words _ _ _ _ E) as (A1 & _ & A3 & A4).
  constructor; auto. left. rewrite Q4, A4. split; [reflexivity|]. split; reflexivity.
Qed.

(** ** C90 *)
(** The work of garbage collection in one search step is linear in the clause
    memory, the trail and the number of variables. *)
Theorem collect_linear select dbg F s r cx st k :
  select_ok (fun _ _ => True) select -> reach select dbg F s ->
  schedule_search_step_gc select dbg (so_ctx s) (so_state s) = Ret ((r, cx, st), k) ->
  k <= 3 * memory_words s + 3 * (cnf_vars F + unit_clauses F) + 1.
Proof.
  intros Hs HR E. pose proof (vis_solver _ _ _ _ HR) as HV. pose proof (reach_J _ _ _ _ Hs HR) as HJ. unfold schedule_search_step_gc in E. destruct (should_restart _ _) as [dr sc1].
  apply bindC_ret in E as ([cx1 se1] & k1 & k2 & E1 & E & ->). apply units_ret in E1 as [E1 ->].
  assert (Q1 : visited select dbg F cx1 se1 /\ J cx1 (se_prop se1) /\ awords (p_long (se_prop se1)) = memory_words s).
  { destruct dr; [|inversion E1; subst; auto]. split; [eapply vis_restart; eauto|]. split; [eapply restart_J; eauto|]. erewrite restart_size by eauto. reflexivity. }
  destruct Q1 as (V1 & J1 & P1). destruct (should_reduce _ _) as [dd sc2].
  apply bindC_ret in E as ([cx2 se2] & k3 & k4 & E2 & E & ->). apply units_ret in E2 as [E2 ->].
  assert (Q2 : visited select dbg F cx2 se2 /\ J cx2 (se_prop se2) /\ awords (p_long (se_prop se2)) = memory_words s).
  { destruct dd; [|inversion E2; subst; auto]. destruct (reduce select cx1 se1) as [[cx5 se5]| |] eqn:E5; cbn [bind] in E2; try discriminate. destruct (report dbg cx5); cbn [bind] in E2; try discriminate. inversion E2; subst.
    split; [eapply vis_reduce; eauto|]. split; [eapply reduce_J; eauto|]. rewrite (reduce_size _ _ _ _ _ E5). exact P1. }
  destruct Q2 as (V2 & [J2 _] & P2). apply bindC_ret in E as ([[r3 cx3] se3] & k5 & k6 & E3 & E & ->). inversion E; subst. clear E.
  unfold search_step_gc in E3. destruct (p_unsat (se_prop se2)); [inversion E3; lia|].
  apply bindC_ret in E3 as (p0 & k7 & k8 & E0 & E3 & ->). apply units_ret in E3 as [_ ->].
  unfold prop_collect_garbage_n in E0. destruct (should_collect_garbage _); [|inversion E0; lia]. pose proof (now_cost _ _ _ _ E0) as [_ C].
  pose proof (proj1 (trail_length _ _ _ _ _ Hs V2)) as B. destruct (visited_SI _ _ _ _ _ Hs V2) as (K & L & st & es & _ & HI).
  pose proof (pi_wl _ _ _ _ (s_pi _ _ _ _ _ _ _ _ HI)) as Hw. unfold tw, tot in J2. lia.
Qed.

(** The work of all garbage collections: a multiple of the words stored, and one
    visit of the watch lists and the trail for every reduction.  What is missing:
    the same without [z], the number of search steps taken while the clause memory
    was empty. *)
Theorem collect_amortized_partial select dbg w z F s :
  select_ok (fun _ _ => True) select -> gc_reach select dbg w z F s ->
  let m := cnf_vars F + unit_clauses F in let t := cx_stats (so_ctx s) in
  w <= 6 * (long_words F + st_conflicts t * (m + 3)) + (st_reductions t + z) * (3 * m + 1).
Proof.
  intros Hs H m t. destruct (gc_reach_GI _ _ _ _ _ _ Hs H) as (c & A & B). fold m t in A, B.
  assert (c * (3 * m + 1) <= (st_reductions t + z) * (3 * m + 1)) by (apply Nat.mul_le_mono_r; lia). lia.
Qed.
(** There is no such step once a clause of three or more literals was added. *)
Theorem memory_in_use select dbg F s c :
  select_ok (fun _ _ => True) select -> reach select dbg F s -> In c F -> 3 <= length c -> 0 < memory_words s.
Proof.
  intros Hs HR Hc Hl. pose proof (vis_solver _ _ _ _ HR) as HV. destruct (visited_SI _ _ _ _ _ Hs HV) as (K & L & st & es & _ & HI).
  pose proof (s_pi _ _ _ _ _ _ _ _ HI) as HP. pose proof (LR_bound _ _ (pi_lr _ _ _ _ HP)) as B. unfold memory_words.
  assert (H : In c (filter longb F)). { apply filter_In. split; [exact Hc|]. unfold longb. destruct c as [|x [|y [|d r]]]; cbn in Hl; try lia; reflexivity. }
  destruct es as [|e es]; [exfalso|cbn [length] in B; lia].
  pose proof (db_irr _ _ _ _ _ _ (s_db _ _ _ _ _ _ _ _ HI)) as M. cbn in M. destruct M as (l & P & Q). apply Permutation_nil in P. subst l. inversion Q; subst. rewrite <- H0 in H. destruct H.
Qed.
(** A formula of one unit clause: solving it takes a number of visits that is
    quadratic in the number of variables, although there is not a single clause
    to collect. *)
Theorem collect_quadratic select dbg i :
  select_ok (fun _ _ => True) select -> (N.of_nat i < 2 ^ 30)%N ->
  exists s fuel s' w z, built dbg (one_unit i) s /\ solve select dbg fuel s = Ret (true, s') /\ gc_reach select dbg w z (one_unit i) s' /\
    st_conflicts (cx_stats (so_ctx s')) = 0 /\ st_reductions (cx_stats (so_ctx s')) <= 1 /\ memory_words s' = 0 /\
    2 * (i + 1) * i <= w.
Proof.
  intros Hs Hi. destruct (one_unit_built dbg i Hi) as (s & HB & HP & HT). exists s.
  pose proof (gr_built select dbg _ _ HB) as HG. assert (HR : reach select dbg (one_unit i) s) by (apply reach_built; exact HB).
  destruct (solve_terminates _ _ _ _ Hs HR) as [fuel Hf].
  assert (E : exists b s', solve select dbg fuel s = Ret (b, s')).
  { destruct (Hf fuel (le_n _)) as [G|[G _]]; [exact G|]. exfalso. clear Hf HB HT HR. revert HG G. generalize 0 at 1 as w. generalize 0 as z. intros z w. revert s HP z w.
    induction fuel as [|f IH]; intros s HP z w HG E; [discriminate|]. cbn [solve] in E.
    assert (HR : reach select dbg (one_unit i) s) by (apply counted_schedule; eauto).
    destruct (step_no_panic _ _ _ _ Hs HR) as [(r & cx & st & E1)|[_ A]].
    - rewrite E1 in E. cbn [bind] in E. rewrite <- er_schedule in E1. apply erased in E1 as [k E1]. destruct (schedule_plain _ _ _ _ _ _ _ _ Hs HR HP E1) as (P1 & _).
      destruct r as [b|]; [unfold report in E; destruct dbg; [destruct (Nat.leb _ _)|]; cbn [bind] in E; discriminate|].
      eapply IH; [exact P1|eapply gr_step; eauto|exact E].
    - revert A. unfold arena_full, arena_words. pose proof (pl_aw _ HP) as A. unfold awords in A. rewrite A. cbn. lia. }
  destruct E as (b & s' & E). destruct (solve_grows _ _ _ _ Hs _ _ _ _ _ HG HP E) as (P2 & w & z & HG2 & Y).
  destruct (solve_inv _ _ _ _ _ _ _ Hs HR E) as (K & L & st & es & _ & R). pose proof (pl_us _ P2) as U2. destruct b; [|cbn in R; congruence].
  destruct R as (_ & _ & R). apply assigned_length in R. exists fuel, s', w, z.
  assert (Hn : cnf_vars (one_unit i) = i + 1). { unfold one_unit, cnf_vars. cbn [fold_left]. unfold clause_var_count. cbn [fold_right]. rewrite vidx_div. lia. }
  rewrite Hn in *. rewrite HT in Y. split; [exact HB|]. split; [exact E|]. split; [exact HG2|]. split; [apply P2|]. split; [destruct (pl_rd _ P2); lia|]. split; [apply P2|].
  assert (2 * (i + 1) * (i + 1) <= 2 * (i + 1) * length (t_steps (p_trail (se_prop (so_se s'))))) by (apply Nat.mul_le_mono_l; exact R). lia.
Qed.
(** So no multiple of what is stored, learned and reduced bounds the work. *)
Theorem collect_amortized_refuted select dbg (K : nat) :
  select_ok (fun _ _ => True) select -> (N.of_nat K < 2 ^ 29)%N ->
  exists w z F s, gc_reach select dbg w z F s /\
    let m := cnf_vars F + unit_clauses F in let t := cx_stats (so_ctx s) in
    K * (long_words F + st_conflicts t * (m + 3) + (st_reductions t + 1) * (m + 1)) < w.
Proof.
  change (2 ^ 29)%N with 536870912%N. intros Hs HK. destruct (collect_quadratic select dbg (K + 5) Hs) as (s & fuel & s' & w & z & _ & _ & HG & C & R & _ & W).
  { change (2 ^ 30)%N with 1073741824%N. lia. }
  exists w, z, (one_unit (K + 5)), s'. split; [exact HG|]. cbv zeta.
  assert (Hn : cnf_vars (one_unit (K + 5)) = K + 6). { unfold one_unit, cnf_vars. cbn [fold_left]. unfold clause_var_count. cbn [fold_right]. rewrite vidx_div. lia. }
  change (unit_clauses (one_unit (K + 5))) with 1. change (long_words (one_unit (K + 5))) with 0. rewrite Hn, C.
  assert (K * (0 + 0 * (K + 6 + 1 + 3) + (st_reductions (cx_stats (so_ctx s')) + 1) * (K + 6 + 1 + 1)) <= K * (2 * (K + 8))) by (apply Nat.mul_le_mono_l; nia).
  nia.
Qed.

(** Looking up the new place of a clause takes a logarithmic number of
    comparisons, and the counter does not change the result. *)
Lemma er_search fuel gaps c : forall lo size hi, erase (gc_search_n fuel gaps c lo size hi) = gc_search fuel gaps c lo size hi.
Proof.
  induction fuel as [|f IH]; intros lo size hi; [reflexivity|]. cbn [gc_search_n gc_search]. destruct (Nat.ltb lo hi); [|reflexivity].
  apply er_bind; [apply er_units|]. intro g. destruct (Nat.ltb c (g_start g)); apply IH.
Qed.
Theorem lookup_logarithmic gaps c :
  (forall i, gc_search (S (length gaps)) gaps c 0 (length gaps) (length gaps) = Ret i <->
    exists k, gc_search_n (S (length gaps)) gaps c 0 (length gaps) (length gaps) = Ret (i, k)) /\
  forall i k, gc_search_n (S (length gaps)) gaps c 0 (length gaps) (length gaps) = Ret (i, k) -> k <= Nat.log2 (length gaps) + 1.
Proof.
  split; [intro i; rewrite <- er_search; apply erased|].
  assert (G : forall fuel lo hi i k, gc_search_n fuel gaps c lo (hi - lo) hi = Ret (i, k) -> k <= if Nat.ltb lo hi then Nat.log2 (hi - lo) + 1 else 0).
  { induction fuel as [|f IH]; intros lo hi i k E; [discriminate|]. cbn [gc_search_n] in E. destruct (Nat.ltb_spec lo hi) as [H|H]; [|inversion E; lia].
    apply bindC_ret in E as (g & k1 & k2 & E1 & E & ->). apply units_ret in E1 as [_ ->].
    pose proof (Nat.div_mod (hi - lo) 2 ltac:(lia)) as D. pose proof (Nat.mod_upper_bound (hi - lo) 2 ltac:(lia)) as D2.
    assert (L : forall x, 0 < x -> x <= (hi - lo) / 2 -> Nat.log2 x + 1 <= Nat.log2 (hi - lo)).
    { intros x X1 X2. rewrite Nat.add_1_r, <- Nat.log2_double by lia. apply Nat.log2_le_mono. lia. }
    destruct (Nat.ltb c (g_start g)).
    - replace (lo + (hi - lo) / 2 - lo) with ((hi - lo) / 2) in E by lia. set (q := (hi - lo) / 2) in *.
      specialize (IH lo (lo + q) i k2). replace (lo + q - lo) with q in IH by lia. specialize (IH E). destruct (Nat.ltb_spec lo (lo + q)); [|lia]. specialize (L q). lia.
    - specialize (IH _ _ _ _ E). destruct (Nat.ltb_spec (lo + (hi - lo) / 2 + 1) hi); [|lia]. specialize (L (hi - (lo + (hi - lo) / 2 + 1))). lia. }
  intros i k E. specialize (G (S (length gaps)) 0 (length gaps) i k). rewrite Nat.sub_0_r in G. specialize (G E). destruct (Nat.ltb 0 (length gaps)); lia.
Qed.

(** ** Examples *)
Fixpoint gc_steps (n w z : nat) (s : solver) : option (nat * nat * solver) :=
  match n with
  | O => Some (w, z, s)
  | S n' =>
      match schedule_search_step_gc select_sort true (so_ctx s) (so_state s) with
      | Ret ((_, cx, st), k) => gc_steps n' (w + k) (z + if Nat.eqb (memory_words s) 0 then 1 else 0) (mkSolver cx st)
      | _ => None
      end
  end.
Lemma gc_steps_reach F n : forall w z s w' z' s', gc_reach select_sort true w z F s -> gc_steps n w z s = Some (w', z', s') -> gc_reach select_sort true w' z' F s'.
Proof.
  induction n as [|n IH]; intros w z s w' z' s' H E; cbn [gc_steps] in E; [inversion E; subst; exact H|].
  destruct (schedule_search_step_gc _ _ _ _) as [[[[r cx] st] k]| |] eqn:E1; try discriminate. eapply IH; [eapply gr_step; eauto|exact E].
Qed.

(** One unit clause on the fourth of four variables: the five search steps that
    solve it collect an empty clause memory five times, in 54 units of work. *)
Example collect_quadratic_example :
  exists s, gc_reach select_sort true 54 5 (one_unit 3) s /\ st_conflicts (cx_stats (so_ctx s)) = 0 /\ memory_words s = 0.
Proof.
  set (s0 := added true (one_unit 3)).
  assert (X : match gc_steps 5 0 0 s0 with Some (w, z, s) => w = 54 /\ z = 5 /\ st_conflicts (cx_stats (so_ctx s)) = 0 /\ memory_words s = 0 | None => False end) by (vm_compute; auto).
  destruct (gc_steps 5 0 0 s0) as [[[w z] s]|] eqn:E; [|contradiction]. destruct X as (-> & -> & C & M). exists s.
  split; [|auto]. eapply gc_steps_reach; [|exact E]. apply gr_built. apply built_added; vm_compute; reflexivity.
Qed.
(** With long clauses present nothing is collected until memory is wasted. *)
Example collect_amortized_example :
  exists s, gc_reach select_sort true 0 0 php6 s /\ 0 < st_conflicts (cx_stats (so_ctx s)) /\ 0 < memory_words s.
Proof.
  set (s0 := added true php6).
  assert (X : match gc_steps 50 0 0 s0 with Some (w, z, s) => w = 0 /\ z = 0 /\ Nat.ltb 0 (st_conflicts (cx_stats (so_ctx s))) = true /\ Nat.ltb 0 (memory_words s) = true | None => False end) by (vm_compute; auto).
  destruct (gc_steps 50 0 0 s0) as [[[w z] s]|] eqn:E; [|contradiction]. destruct X as (-> & -> & C & M). apply Nat.ltb_lt in C, M. exists s.
  split; [|auto]. eapply gc_steps_reach; [|exact E]. apply gr_built. apply built_added; vm_compute; reflexivity.
Qed.
(** A collection that moves clauses: 263 words, 168 of them garbage. *)
Example counted_collect_example :
  match prop_collect_garbage_n true (se_prop (snd state6)) with
  | Ret (p', k) => length (a_buffer (p_long p')) = 95 /\ k = 230
  | _ => False
  end.
Proof. vm_compute. auto. Qed.
Example lookup_example : gc_search_n 6 [mkGap 3 4 1; mkGap 9 10 2; mkGap 20 23 5; mkGap 31 32 6; mkGap 40 43 9] 25 0 5 5 = Ret (3, 3).
Proof. vm_compute. reflexivity. Qed.

Print Assumptions counted_collect.
Print Assumptions counted_schedule.
Print Assumptions collect_linear.
Print Assumptions collect_amortized_partial.
Print Assumptions memory_in_use.
Print Assumptions collect_quadratic.
Print Assumptions collect_amortized_refuted.
Print Assumptions lookup_logarithmic.
