(** C87: all tables are proportional to the formula. *)
From Coq Require Import NArith List Bool Arith Lia ZifyN ZifyNat ZifyBool Sorted.
From Verif Require Import Model_Base Model_Lit Model_PartialAssignment Model_Header Model_Arena Model_Prop
  Model_Heap Model_Vsids Model_Analysis Model_Luby Model_Solver Spec Proof_Base Proof_PA Proof_Lit Proof_Heap
  Proof_Long Proof_Trail Proof_Backtrack Proof_Inv Proof_Propagate Proof_Gc Proof_Solver Proof_Search
  Drivers_Solver Drivers_Search Proof_Add Proof_Main Proof_Select Proof_Visited Examples_Solver Proof_Size Proof_Garbage Proof_Tables Prop_Prop Prop_Search Prop_Memory Prop_Width.
Import ListNotations.

(** The number of entries of a list of lists *)
Definition entries {A} (ls : list (list A)) : nat := length (concat ls).

Lemma heap_small h : HS h -> length (h_heap h) <= length (h_values h).
Proof.
  intro H. assert (ND : NoDup (h_heap h)).
  { apply NoDup_nth_error. intros i j Hi E. destruct (nth_error (h_heap h) i) as [v|] eqn:Ei; [|apply nth_error_None in Ei; lia].
    pose proof (hs_pos _ H _ _ Ei) as A. symmetry in E. pose proof (hs_pos _ H _ _ E) as B. rewrite A in B. congruence. }
  rewrite <- (hs_len _ H), <- (seq_length (length (h_pos h)) 0). apply NoDup_incl_length; auto. intros v Hv. apply In_nth_error in Hv as [i Hi].
  apply in_seq. pose proof (hs_pos _ H _ _ Hi) as A. assert (v < length (h_pos h)) by (apply nth_error_Some; congruence). lia.
Qed.
Lemma sorted_small l : StronglySorted lt l -> forall m, (forall x, In x l -> x < m) -> length l <= m.
Proof.
  intros Hs m Hm. rewrite <- (seq_length m 0). apply NoDup_incl_length; [|intros x Hx; apply in_seq; specialize (Hm x Hx); lia].
  clear Hm. induction Hs as [|a l Hs IH Hf]; constructor; auto. intro Hi. rewrite Forall_forall in Hf. specialize (Hf a Hi). lia.
Qed.

(** ** C87 *)
(** Between any two steps of [solve], until it has found the clauses to be
    unsatisfiable: the tables indexed by variables and literals have one entry for each
    of them; the trail, the list of decisions and the queue of variables are no longer
    than the number of variables (and repeated unit clauses); the watch lists have
    together at most two entries for every three words that the clauses kept need; the
    lists of binary clauses have together at most two entries for each clause. *)
Theorem tables_bounded select dbg F s :
  select_ok (fun _ _ => True) select -> reach select dbg F s ->
  let se := sta_search (so_state s) in let p := se_prop se in let n := st_vars (cx_stats (so_ctx s)) in
  length (p_values p) = n /\ length (se_phases se) = n /\ length (t_index (p_trail p)) = n /\
  length (h_values (vs_activity (se_vsids se))) = n /\ length (h_pos (vs_activity (se_vsids se))) = n /\
  length (h_heap (vs_activity (se_vsids se))) <= n /\
  length (ws_by_lit (p_watches p)) = 2 * n /\ length (p_binary p) = 2 * n /\
  length (t_steps (p_trail p)) <= n + unit_clauses F /\ length (t_decisions (p_trail p)) <= 1 + n + unit_clauses F /\
  entries (p_binary p) <= 2 * st_binary (cx_stats (so_ctx s)) /\
  (p_unsat p = false -> exists live, lists_long p live /\ 3 * entries (ws_by_lit (p_watches p)) <= 2 * words_needed live).
Proof.
  intros Hs H se p n. pose proof (vis_solver _ _ _ _ H) as HV. fold se in HV.
  destruct (visited_SI _ _ _ _ _ Hs HV) as (K & L & steps & es & _ & HI).
  pose proof (s_pi _ _ _ _ _ _ _ _ HI) as HP. fold p in HP. pose proof (s_cb _ _ _ _ _ _ _ _ HI) as HC.
  assert (En : n = cnf_vars F) by apply (sti_vars _ _ _ _ _ (s_st _ _ _ _ _ _ _ _ HI)). rewrite En. clear n En.
  destruct (reach_J _ _ _ _ Hs H) as [J1 J2]. fold se p in J1, J2.
  assert (Ht : length (t_steps (p_trail p)) <= cnf_vars F + unit_clauses F).
  { exact (proj1 (trail_length _ _ _ _ _ Hs HV)). }
  pose proof (pi_tr _ _ _ _ HP) as HT.
  split; [eapply VR_length; apply HP|]. split; [apply (cb_ph _ _ HC)|]. split; [apply HT|].
  split; [apply (cb_len _ _ HC)|]. split; [pose proof (hs_len _ (cb_hs _ _ HC)) as X1; pose proof (cb_len _ _ HC) as X2; cbn [cb_vsids] in X1, X2; lia|].
  split; [pose proof (heap_small _ (cb_hs _ _ HC)) as X1; pose proof (cb_len _ _ HC) as X2; cbn [cb_vsids] in X1, X2; lia|].
  split; [apply HP|]. split; [apply (bi_len _ _ (pi_bi _ _ _ _ HP))|]. split; [exact Ht|].
  split; [|split; [exact J2|]].
  - rewrite (tr_hd _ _ HT). cbn [length]. pose proof (sorted_small _ (tr_sort _ _ HT) (length (t_steps (p_trail p))) (fun d Hd => proj1 (tr_ds _ _ HT d Hd))). lia.
  - intro Hu. destruct (memory_bounded _ _ _ _ Hs H Hu) as (live & L1 & L2). exists live. split; [exact L1|].
    unfold tw, tot in J1. unfold awords in J1. unfold entries. fold se p in L2. lia.
Qed.

(** The hypotheses are met: after fifty steps on the pigeonhole principle for six
    holes, when many clauses have been learned. *)
Example tables_bounded_ex :
  reach select_sort true php6 start6 /\
  (let p := se_prop (sta_search (so_state start6)) in p_unsat p = false /\
   (st_vars (cx_stats (so_ctx start6)), entries (ws_by_lit (p_watches p)), entries (p_binary p), length (t_steps (p_trail p)), length (t_decisions (p_trail p))) = (30, 50, 150, 20, 9)).
Proof. split; [apply start6_reach|]. vm_compute. repeat split. Qed.

Print Assumptions tables_bounded.
