(** C78: the numbers the solver keeps in 32 bits fit.  The model keeps trail
    positions, decision levels, heap positions and clause references as unbounded
    numbers where the code casts a [usize] to [u32]; here is why no cast changes a
    value. *)
From Coq Require Import NArith List Bool Arith Lia Permutation Sorted ZifyN ZifyNat ZifyBool.
From Verif Require Import Model_Base Model_Lit Model_PartialAssignment Model_Header Model_Arena Model_Prop
  Model_Heap Model_Vsids Model_Analysis Model_Luby Model_Solver Spec Drivers_Arena Proof_Base Proof_PA Proof_Lit Proof_Header Proof_Arena
  Proof_ArenaHist Proof_Long Proof_Trail Proof_PropOps Proof_Backtrack Proof_Inv Proof_Heap Proof_Solver Proof_Add
  Drivers_Solver Drivers_Search Proof_Main Proof_Visited Examples_Solver Prop_Safety.
Import ListNotations.

(** [n as u32] is [n]. *)
Definition fits32 (n : nat) : Prop := (N.of_nat n < 2 ^ 32)%N.

Lemma fits_le n m : n <= m -> fits32 m -> fits32 n.
Proof. unfold fits32. lia. Qed.

Lemma trail_length select dbg F cx se : anysel select -> visited select dbg F cx se ->
  length (t_steps (p_trail (se_prop se))) <= cnf_vars F + unit_clauses F /\
  (dbg = true \/ distinct_units F -> length (t_steps (p_trail (se_prop se))) <= cnf_vars F) /\ (N.of_nat (cnf_vars F) <= 2 ^ 30)%N.
Proof.
  intros Hs HV. destruct (visited_SI _ _ _ _ _ Hs HV) as (K & L & st & es & [HK HU] & H).
  pose proof (s_pi _ _ _ _ _ _ _ _ H) as HP. pose proof (trail_bound _ _ _ _ (pi_vr _ _ _ _ HP) (s_dup _ _ _ _ _ _ _ _ H)) as B.
  pose proof (taken_le F). split; [lia|]. split; [intro D; specialize (HK D); lia|]. change (2 ^ 30)%N with 1073741824%N. apply HP.
Qed.

(** In the whole life of a solver, unless a release build was given 3 * 2^30 unit
    clauses some of which are equal: the number of assignments, the trail
    positions, decision levels, the starts of the decision levels, the references
    to clauses (in reasons, watch lists and of stored clauses), the number of
    variables and the positions in the heap all fit into 32 bits; and no position
    is [u32::MAX], which stands for "none". *)
Theorem indices_fit select dbg F cx se :
  select_ok (fun _ _ => True) select -> visited select dbg F cx se ->
  dbg = true \/ distinct_units F \/ (N.of_nat (unit_clauses F) < 3 * 2 ^ 30)%N ->
  let p := se_prop se in let t := p_trail p in let h := vs_activity (se_vsids se) in
  fits32 (length (t_steps t)) /\ fits32 (decision_level t) /\
  (forall d, In d (t_decisions t) -> fits32 d) /\
  (forall s, In s (t_steps t) -> fits32 (s_level s)) /\
  (forall l i, trail_index t l = Ret i -> is_true p l \/ is_false p l -> fits32 (S i)) /\
  (forall s r, In s (t_steps t) -> s_reason s = RLong r -> fits32 r) /\
  (forall l ws w, nth_error (ws_by_lit (p_watches p)) l = Some ws -> In w ws -> fits32 (w_clause w)) /\
  (forall r c, long_lits (p_long p) r = Ret c -> fits32 r) /\
  fits32 (st_vars (cx_stats cx)) /\ fits32 (length (h_heap h)) /\
  (forall v i, nth_error (h_pos h) v = Some (Some i) -> fits32 (S i)).
Proof.
  intros Hs HV HB p t h. destruct (trail_length _ _ _ _ _ Hs HV) as (B1 & B2 & B3). fold p in B1, B2. fold t in B1, B2.
  assert (FL : fits32 (length (t_steps t))).
  { unfold fits32. change (2 ^ 32)%N with (4 * 2 ^ 30)%N. change (2 ^ 30)%N with 1073741824%N in *. destruct HB as [HB|[HB|HB]]; [specialize (B2 (or_introl HB))|specialize (B2 (or_intror HB))|]; lia. }
  destruct (visited_SI _ _ _ _ _ Hs HV) as (K & L & st & es & HK & H).
  pose proof (s_pi _ _ _ _ _ _ _ _ H) as HP. pose proof (pi_tr _ _ _ _ HP) as HT. pose proof (s_cb _ _ _ _ _ _ _ _ H) as HC.
  fold p in HP, HT. fold t in HT.
  assert (FE : forall c h l, In (c, h, l) es -> fits32 c).
  { intros c h0 l Hi. pose proof (AR_fit _ _ _ _ (pi_lr _ _ _ _ HP) _ (lew_in _ _ _ _ Hi)) as G. unfold e_ref, LITIDX_MAX in G. cbn [fst] in G.
    unfold fits32. change (2 ^ 32)%N with 4294967296%N. lia. }
  assert (FD : decision_level t <= length (t_steps t)).
  { rewrite (tr_dl _ _ HT). rewrite <- (seq_length (length (t_steps t)) 0). apply NoDup_incl_length.
    - pose proof (tr_sort _ _ HT) as SS. clear - SS. induction SS as [|x l SS IH G]; constructor; auto. intro Hi. rewrite Forall_forall in G. specialize (G _ Hi). lia.
    - intros d Hd. apply in_seq. pose proof (tr_ds _ _ HT _ Hd). lia. }
  assert (FH : length (h_heap h) <= cnf_vars F).
  { rewrite <- (seq_length (cnf_vars F) 0). apply NoDup_incl_length; [apply hs_nodup, (cb_hs _ _ HC)|].
    intros i Hi. apply in_seq. apply In_nth_error in Hi as [q E]. pose proof (hs_pos _ (cb_hs _ _ HC) _ _ E) as G.
    rewrite <- (cb_len _ _ HC), <- (hs_len _ (cb_hs _ _ HC)). cbn [cb_vsids]. fold h. split; [lia|]. cbn [Nat.add]. apply nth_error_Some. cbn [cb_vsids] in G. fold h in G. congruence. }
  assert (FN : fits32 (S (cnf_vars F))). { unfold fits32. change (2 ^ 32)%N with (4 * 2 ^ 30)%N. change (2 ^ 30)%N with 1073741824%N in *. lia. }
  split; [exact FL|]. split; [eapply fits_le; eauto|]. split.
  { intros d Hd. rewrite (tr_hd _ _ HT) in Hd. destruct Hd as [<-|Hd]; [reflexivity|]. eapply fits_le; [|exact FL]. pose proof (tr_ds _ _ HT _ Hd). lia. }
  split. { intros s Hi. apply In_nth_error in Hi as [i E]. eapply fits_le; [|exact FL]. pose proof (tr_lev_le _ _ HT _ _ E). lia. }
  split.
  { intros l i E Hl. unfold trail_index, vget in E. destruct (nth_error (t_index t) (vidx l)) as [[j|]|] eqn:En; try discriminate. inversion E; subst j.
    assert (G : exists x, In x (slits (t_steps t)) /\ vidx x = vidx l).
    { destruct Hl as [Hl|Hl]; [exists l|exists (neg l)]; (split; [exact Hl|]); rewrite ?vidx_neg; auto. }
    destruct G as (x & Hx & Ex). pose proof (tr_idx _ _ HT _ Hx) as G. rewrite Ex, En in G. inversion G as [G1].
    eapply fits_le; [|exact FL]. symmetry in G1. apply lpos_lt in G1. lia. }
  split.
  { intros s r Hi Er. apply In_nth_error in Hi as [i E]. pose proof (pi_ri _ _ _ _ HP i s E) as G. rewrite Er in G. destruct G as (h0 & rl & G & _). eauto. }
  split.
  { intros l ws w El Hw. assert (Ll : l < 2 * cnf_vars F) by (rewrite <- (pi_wl _ _ _ _ HP); apply nth_error_Some; congruence).
    assert (El2 : cidx (N.of_nat l) = l) by (unfold cidx; lia).
    destruct (wf_ref _ _ _ (pi_wf _ _ _ _ HP) (N.of_nat l) w) as (_ & h0 & c & G & _); [apply cidx_lt; rewrite El2; auto| |eauto].
    unfold wfun. rewrite El2. rewrite (nth_error_nth _ _ _ El). exact Hw. }
  split.
  { intros r c E. destruct (LR_lits_rev _ _ (pi_lr _ _ _ _ HP) r c E) as (h0 & G). eauto. }
  split. { rewrite (sti_vars _ _ _ _ _ (s_st _ _ _ _ _ _ _ _ H)). eapply fits_le; [|exact FN]. lia. }
  split. { eapply fits_le; [|exact FN]. lia. }
  intros v i E. eapply fits_le; [|exact FN]. pose proof (hs_heap _ (cb_hs _ _ HC) _ _ E) as G. cbn [cb_vsids] in G. fold h in G.
  assert (i < length (h_heap h)) by (apply nth_error_Some; congruence). lia.
Qed.

(** The references of a clause arena fit, whatever calls were made: a larger number
    is rejected by every accessor, and iterating never needs one. *)
Theorem arena_refs_fit HL hook a c n :
  hook_ok HL hook -> asafe HL hook a -> clause_len HL a c = Ret n -> fits32 c.
Proof.
  intros Hk H E. destruct (asafe_inv HL hook a Hk H) as (es & HA). unfold fits32. change (2 ^ 32)%N with 4294967296%N.
  destruct (in_dec Nat.eq_dec c (map e_ref es)) as [Hi|Hi].
  - apply in_map_iff in Hi as (e & <- & He). pose proof (AR_fit _ _ _ _ HA e He) as G. unfold LITIDX_MAX in G. lia.
  - destruct (AR_invalid HL false a es c HA) as [q Eq]; [|congruence]. intros e He <-. apply Hi. apply in_map. exact He.
Qed.
Theorem arena_iterate_fits HL hook a fuel cs :
  hook_ok HL hook -> asafe HL hook a -> iterate HL fuel a None = Ret cs -> forall c, In c cs -> fits32 c.
Proof.
  intros Hk H. destruct (arena_memory_safe HL hook a Hk H) as (A & B & _).
  assert (G : forall fuel o cs, (exists o', next_clause HL a o = Ret o' /\ forall r, o' = Some r -> exists n, clause_len HL a r = Ret n /\ 0 < n) ->
    iterate HL fuel a o = Ret cs -> forall c, In c cs -> exists n, clause_len HL a c = Ret n).
  { clear fuel cs. induction fuel as [|f IH]; intros o cs (o' & E & Ho) E1 c Hc; [discriminate|]. cbn [iterate] in E1. rewrite E in E1. cbn [bind] in E1.
    destruct o' as [r|]; [|inversion E1; subst; contradiction]. destruct (Ho r eq_refl) as (n & En & _).
    destruct (iterate HL f a (Some r)) as [cs1| |] eqn:E2; try discriminate. cbn [bind] in E1. inversion E1; subst. destruct Hc as [<-|Hc]; [eauto|].
    eapply IH; [|exact E2|exact Hc]. apply (A r n En). }
  intros E c Hc. destruct (G _ _ _ B E c Hc) as (n & En). eapply arena_refs_fit; eauto.
Qed.

(** The bound on the number of repeated unit clauses is needed: in release builds
    each one of them takes a place on the trail. *)
Lemma units_pile s : p_values (se_prop (sta_search (so_state s))) = [1%N] -> st_vars (cx_stats (so_ctx s)) = 1 ->
  length (t_index (p_trail (se_prop (sta_search (so_state s))))) = 1 ->
  exists s', solver_add_clause false s [1%N] = Ret s' /\ p_values (se_prop (sta_search (so_state s'))) = [1%N] /\ st_vars (cx_stats (so_ctx s')) = 1 /\
    length (t_index (p_trail (se_prop (sta_search (so_state s'))))) = 1 /\
    length (t_steps (p_trail (se_prop (sta_search (so_state s'))))) = S (length (t_steps (p_trail (se_prop (sta_search (so_state s)))))).
Proof.
  intros Hv Hn Hi. unfold solver_add_clause. change (clause_var_count [1%N]) with 1. rewrite Hn. change (1 <? 1) with false. cbn [bind add_clause_verbatim].
  rewrite Hv. change (pa_is_false [1%N] 1%N) with (Ret false). cbn [bind]. unfold assign, assign_raw. cbn [s_lit]. change (vidx 1) with 0.
  destruct (t_index (p_trail (se_prop (sta_search (so_state s))))) as [|x [|y r]] eqn:Et; try discriminate.
  change (vset [x] 0 (Some (length (t_steps (p_trail (se_prop (sta_search (so_state s)))))))) with (Ret [Some (length (t_steps (p_trail (se_prop (sta_search (so_state s))))))]).
  cbn [bind]. rewrite Hv. change (pa_is_assigned [1%N] (lit_var 1)) with (Ret true). cbn [bind]. unfold dassert. change (pa_assign [1%N] 1%N) with (Ret [1%N]). cbn [bind].
  eexists. split; [reflexivity|]. cbn [so_state so_ctx sta_search se_prop p_set_vt p_values p_trail t_index t_steps]. repeat split; auto.
  rewrite app_length. cbn [length]. lia.
Qed.

Theorem repeated_units_overflow : exists F s, built false F s /\ valid_cnf F /\ ~ fits32 (length (t_steps (p_trail (se_prop (sta_search (so_state s)))))).
Proof.
  assert (G : forall k, exists s, built false (repeat [1%N] (S k)) s /\ p_values (se_prop (sta_search (so_state s))) = [1%N] /\
    st_vars (cx_stats (so_ctx s)) = 1 /\ length (t_index (p_trail (se_prop (sta_search (so_state s))))) = 1 /\
    length (t_steps (p_trail (se_prop (sta_search (so_state s))))) = S k).
  { induction k as [|k (s & H & A & B & C & D)].
    - eexists. split; [eapply (built_add false [] solver_new [1%N]); [constructor| |vm_compute; reflexivity]|vm_compute; auto].
      intros l [<-|[]]. reflexivity.
    - destruct (units_pile s A B C) as (s' & E & A' & B' & C' & D'). exists s'. split; [|rewrite D', D; auto].
      replace (repeat [1%N] (S (S k))) with (repeat [1%N] (S k) ++ [[1%N]]) by (rewrite <- repeat_cons; reflexivity).
      eapply built_add; eauto. intros l [<-|[]]. reflexivity. }
  destruct (G (N.to_nat (2 ^ 32))) as (s & H & _ & _ & _ & D). exists (repeat [1%N] (S (N.to_nat (2 ^ 32)))), s. split; [exact H|]. split.
  - intros c Hc. apply repeat_spec in Hc as ->. intros l [<-|[]]. reflexivity.
  - unfold fits32. rewrite D. lia.
Qed.

(** A search state with decisions, watched and learned clauses. *)
Example indices_fit_example : let s := after true 40 (added true php5) in let p := se_prop (sta_search (so_state s)) in
  visited select_sort true php5 (so_ctx s) (sta_search (so_state s)) /\ 0 < decision_level (p_trail p) /\
  1 < length (t_steps (p_trail p)) /\ a_buffer (p_long p) <> [].
Proof. split; [apply vis_solver, reach_after; constructor; apply php5_built|]. vm_compute. repeat split; try lia; discriminate. Qed.
Example unit_clauses_example : unit_clauses [[1]; [2; 4]; [1]; []; [6]]%N = 3.
Proof. reflexivity. Qed.

Print Assumptions indices_fit.
Print Assumptions arena_refs_fit.
Print Assumptions arena_iterate_fits.
Print Assumptions repeated_units_overflow.
