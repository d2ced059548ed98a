(** C35 (decision heuristic), C37 (restart schedule), C42 (reduction), C44, C45
    and C51, C52 (statistics), C46 (phase saving), C47 (watch lists). *)
From Coq Require Import NArith List Bool Arith Lia Permutation Sorted ZifyN ZifyNat ZifyBool.
From Verif Require Import Model_Base Model_Lit Model_PartialAssignment Model_Header Model_Arena Model_Prop
  Model_Heap Model_Vsids Model_Analysis Model_Luby Model_Solver Spec Drivers_Arena Proof_Base Proof_PA Proof_Lit Proof_Header Proof_Arena
  Proof_ArenaHist Proof_Long Proof_Trail Proof_Heap Proof_Backtrack Proof_Inv Proof_Propagate Proof_PropOps Proof_Gc Proof_Glue
  Proof_Analysis Proof_Minimize Proof_Learn Proof_DB Proof_Reduce Proof_Size Proof_Solver Proof_Search Proof_Luby Proof_Solve Proof_Add
  Drivers_Solver Proof_Main Proof_Select Drivers_Search Proof_Visited Proof_History Examples_Solver.
Import ListNotations.

Lemma cnf_vars_le F c x : In c F -> In x c -> vidx x < cnf_vars F.
Proof.
  intros Hc Hx. induction F as [|d F IH] using rev_ind; [contradiction|]. rewrite cnf_vars_snoc. apply in_app_or in Hc as [Hc|[->|[]]].
  - specialize (IH Hc). lia.
  - pose proof (clause_vars_lt c x Hx). lia.
Qed.
Lemma has_var_lt F v : has_var F v <-> v < cnf_vars F.
Proof.
  split.
  - intros (c & x & Hc & Hx & Hle). pose proof (cnf_vars_le F c x Hc Hx) as G. rewrite vidx_half in G. lia.
  - intro H. destruct (cnf_vars_wit F) as [Z|(c & x & Hc & Hx & Z)]; [lia|]. exists c, x. rewrite <- vidx_half. split; auto. split; auto. lia.
Qed.

(** ** C35 *)
(** [pop_decision_var] returns an unassigned variable if there is one, and
    [None] if and only if all variables are assigned. *)
Theorem decision_var_ok select dbg F cx se :
  select_ok (fun _ _ => True) select -> visited select dbg F cx se ->
  let p := se_prop se in
  exists o vs, pop_decision_var (se_vsids se) (p_values p) = Ret (o, vs) /\
    match o with
    | Some v => has_var F v /\ is_open p (2 * N.of_nat v)
    | None => forall v, has_var F v -> ~ is_open p (2 * N.of_nat v)
    end.
Proof.
  intros Hs HV p. destruct (visited_SI _ _ _ _ _ Hs HV) as (K & L & st & es & HK & H).
  destruct (pop_decision_ok (cnf_vars F) (p_values p) (slits (t_steps (p_trail p))) (se_vsids se) (se_phases se)) as (o & vs & E & _ & _ & _ & _ & HO).
  { apply (s_pi _ _ _ _ _ _ _ _ H). } { apply (s_cb _ _ _ _ _ _ _ _ H). } { apply (s_cov _ _ _ _ _ _ _ _ H). }
  exists o, vs. split; auto. destruct o as [v|].
  - destruct HO as (Hv & Nv & _). split; [apply has_var_lt; auto|].
    assert (Ev : vidx (2 * N.of_nat v) = v) by (rewrite vidx_half; lia).
    rewrite <- Ev, vassigned_lit in Nv. unfold is_open, is_true, is_false, trail_lits. tauto.
  - destruct HO as [_ Ha]. intros v Hv. apply has_var_lt in Hv. assert (Ev : vidx (2 * N.of_nat v) = v) by (rewrite vidx_half; lia).
    specialize (Ha (2 * N.of_nat v)%N ltac:(lia)). unfold is_open, is_true, is_false, trail_lits. tauto.
Qed.

(** After 6 search steps on the pigeon hole formula the heuristic still finds
    an unassigned variable. *)
Example decision_var_example : let s := after true 6 (added true php4) in
  visited select_sort true php4 (so_ctx s) (sta_search (so_state s)) /\
  exists v vs, pop_decision_var (se_vsids (sta_search (so_state s))) (p_values (se_prop (sta_search (so_state s)))) = Ret (Some v, vs).
Proof.
  split; [apply vis_solver, reach_after; constructor; apply php4_built|]. vm_compute. eexists _, _. reflexivity.
Qed.

(** ** C37 *)
(** After a restart in step [i], the next restart happens in the first step [j]
    that sees [512 t] more conflicts than step [i] did, where [t] is the Luby term
    whose index is the number of restarts so far. *)
Theorem restart_schedule select dbg F s n i j t :
  select_ok (fun _ _ => True) select -> reach select dbg F (s 0) -> run select dbg s n ->
  i < j -> j < n -> restarts (s (S i)) = S (restarts (s i)) ->
  (forall k, i < k < j -> restarts (s (S k)) = restarts (s k)) ->
  luby_spec (restarts (s (S i))) t ->
  (restarts (s (S j)) = S (restarts (s j)) <-> (N.of_nat (conflicts (s i)) + 512 * t <= N.of_nat (conflicts (s j)))%N) /\
  (restarts (s (S j)) = S (restarts (s j)) \/ restarts (s (S j)) = restarts (s j)).
Proof.
  intros Hs HR Hrun Hij Hjn Hi Hb Ht.
  assert (RS : forall k, k <= n -> reach select dbg F (s k)).
  { induction k as [|k IH]; intro G; [exact HR|]. destruct (Hrun k ltac:(lia)) as (r & cx & st & E & ->). eapply reach_step; [apply IH; lia|exact E]. }
  assert (ST : forall k, k < n -> if restarts_now (so_ctx (s k)) (so_sc (s k))
     then restarts (s (S k)) = S (restarts (s k)) /\ sc_next_restart (so_sc (s (S k))) =
       (N.of_nat (conflicts (s k)) + fst (luby_wide_advance (wstate (restarts (s k)))) * 512)%N
     else restarts (s (S k)) = restarts (s k) /\ sc_next_restart (so_sc (s (S k))) = sc_next_restart (so_sc (s k))).
  { intros k Hk. destruct (Hrun k Hk) as (r & cx & st & E & Es). destruct (MI_reach _ _ _ _ Hs (RS k ltac:(lia))) as [(K & L & steps & es & HK & H) HL].
    destruct (schedule_step_ok select _ dbg K _ F L steps es (so_ctx (s k)) (so_state (s k)) Hs (fun e => proj1 HK (or_introl e)) H) as [[E1 _]|(r' & cx' & st' & L1 & steps1 & es1 & E1 & O)];
      rewrite E in E1; [discriminate|]. inversion E1; subst r' cx' st'. pose proof (sc_rst _ _ _ _ _ _ _ _ _ _ _ _ _ O) as T.
    rewrite Es. unfold restarts, conflicts in *. cbn [so_ctx so_state]. rewrite <- HL. destruct (restarts_now _ _); tauto. }
  assert (NX : forall k, i < k <= j -> sc_next_restart (so_sc (s k)) = (N.of_nat (conflicts (s i)) + 512 * t)%N).
  { induction k as [|k IH]; intro G; [lia|]. destruct (Nat.eq_dec i k) as [<-|Ne].
    - specialize (ST i ltac:(lia)). destruct (restarts_now _ _); [|lia]. destruct ST as [_ ->].
      rewrite Hi in Ht. pose proof (luby_spec_fun _ _ _ Ht (luby_wide_spec (restarts (s i)))) as ->.
      unfold luby_wide_advance. destruct (_ =? _)%N; cbn [fst]; lia.
    - rewrite <- (IH ltac:(lia)). specialize (ST k ltac:(lia)). specialize (Hb k ltac:(lia)). destruct (restarts_now _ _); [lia|]. tauto. }
  specialize (ST j ltac:(lia)). specialize (NX j ltac:(lia)). unfold restarts_now in ST. rewrite NX in ST. fold (conflicts (s j)) in ST.
  destruct (N.leb_spec (N.of_nat (conflicts (s i)) + 512 * t) (N.of_nat (conflicts (s j)))) as [G|G]; destruct ST as [-> _]; (split; [split|]; intros; auto; lia).
Qed.

(** The first search step after the clauses were added restarts. *)
Theorem restart_first select dbg F s :
  select_ok (fun _ _ => True) select -> built dbg F (s 0) -> run select dbg s 1 ->
  restarts (s 0) = 0 /\ conflicts (s 0) = 0 /\ restarts (s 1) = 1.
Proof.
  intros Hs HB Hrun. destruct (Hrun 0 ltac:(lia)) as (r & cx & st & E & Es).
  destruct (MI_built _ _ _ HB) as [(K & L & steps & es & HK & H) HL].
  destruct (schedule_step_ok select _ dbg K _ F L steps es (so_ctx (s 0)) (so_state (s 0)) Hs (fun e => proj1 HK (or_introl e)) H) as [[E1 _]|(r' & cx' & st' & L1 & steps1 & es1 & E1 & O)];
    rewrite E in E1; [discriminate|]. inversion E1; subst r' cx' st'. pose proof (sc_rst _ _ _ _ _ _ _ _ _ _ _ _ _ O) as T.
  destruct (PSI_built _ _ _ HB) as [_ _ _ _ _ A5 [A6 A7]]. unfold restarts, conflicts. rewrite A7, A6. split; auto. split; auto.
  unfold restarts_now in T. rewrite A5 in T. cbn [schedule_empty sc_next_restart] in T.
  destruct (N.leb_spec 0 (N.of_nat (st_conflicts (cx_stats (so_ctx (s 0)))))) as [G|G]; [|lia].
  destruct T as [T _]. rewrite Es. cbn [so_ctx]. rewrite T, A7. reflexivity.
Qed.

Lemma run_after dbg s0 n : forallb (fun k => match schedule_search_step select_sort dbg (so_ctx (after dbg k s0)) (so_state (after dbg k s0)) with Ret _ => true | _ => false end) (seq 0 n) = true ->
  run select_sort dbg (fun k => after dbg k s0) n.
Proof.
  intros H i Hi. rewrite forallb_forall in H. specialize (H i). rewrite in_seq in H. specialize (H ltac:(lia)).
  assert (A : forall k s, match schedule_search_step select_sort dbg (so_ctx (after dbg k s)) (so_state (after dbg k s)) with
     | Ret (_, cx, st) => after dbg (S k) s = mkSolver cx st | _ => True end).
  { clear. induction k as [|k IH]; intro s.
    - cbn [after]. destruct (schedule_search_step _ _ _ _) as [[[r cx] st]| |]; auto.
    - specialize (IH (match schedule_search_step select_sort dbg (so_ctx s) (so_state s) with Ret (_, cx, st) => mkSolver cx st | _ => s end)).
      destruct (schedule_search_step select_sort dbg (so_ctx s) (so_state s)) as [[[r cx] st]| |] eqn:E.
      + cbn [after]. rewrite E. exact IH.
      + cbn [after]. rewrite E. rewrite E. auto.
      + cbn [after]. rewrite E. rewrite E. auto. }
  specialize (A i s0). destruct (schedule_search_step _ _ _ _) as [[[r cx] st]| |]; try discriminate. eexists _, _, _. split; [reflexivity|exact A].
Qed.
(** A run of 30 steps on the pigeon hole formula: one restart at the start, then
    no further one, as there are fewer than 512 conflicts. *)
Example restart_schedule_example : let s := fun k => after true k (added true php5) in
  built true php5 (s 0) /\ run select_sort true s 30 /\ restarts (s 1) = S (restarts (s 0)) /\
  luby_spec (restarts (s 1)) 1 /\ conflicts (s 29) = 9 /\ restarts (s 30) = 1.
Proof.
  cbv zeta. split; [apply php5_built|]. split; [apply run_after; vm_compute; reflexivity|]. split; [vm_compute; reflexivity|].
  split; [|split; [vm_compute; reflexivity|vm_compute; reflexivity]].
  replace (restarts (after true 1 (added true php5))) with (2 ^ 1 - 1) by (vm_compute; reflexivity). apply (luby_peak 1). lia.
Qed.

(** ** C42 *)
Lemma clause_at_iff n es p r h c : PI n es p -> (clause_at p r h c <-> In (r, h, c) es /\ c <> []).
Proof.
  intro H. unfold clause_at. split.
  - intros (E1 & Hc & E2). split; auto. destruct (LR_lits_rev _ _ (pi_lr _ _ _ _ H) _ _ E1) as (h' & Hi).
    rewrite (LR_header _ _ (pi_lr _ _ _ _ H) _ _ _ Hi) in E2. inversion E2; subst. auto.
  - intros [Hi Hc]. rewrite (LR_lits _ _ (pi_lr _ _ _ _ H) _ _ _ Hi), (LR_header _ _ (pi_lr _ _ _ _ H) _ _ _ Hi). auto.
Qed.
Lemma deletable_iff n es p r h c : PI n es p -> (deletable p r h c <-> In (r, h, c) es /\ eligible (t_steps (p_trail p)) (r, h, c)).
Proof.
  intro H. unfold deletable, eligible, is_reason. rewrite (clause_at_iff _ _ _ _ _ _ H), (le_live_ne r h c).
  unfold le_hdr, le_ref; cbn [fst snd]. pose proof (isreason_spec (t_steps (p_trail p)) r) as S. destruct (isreason _ r).
  - destruct S as [S _]. specialize (S eq_refl). split; [|intuition discriminate]. intros (_ & _ & X & _). contradiction.
  - destruct S as [_ S]. assert (~ exists s, In s (t_steps (p_trail p)) /\ s_reason s = RLong r) by (intro X; specialize (S X); discriminate). tauto.
Qed.

(** [reduce] deletes just under half of the deletable clauses, those of the
    highest score (see C43); all other clauses, the trail, the binary clauses and
    the watch lists stay as they are, only usage counters are decremented, and no
    clause is protected afterwards.  Deleted clauses are logged. *)
Theorem reduce_deletes_worst select dbg F cx se :
  select_ok (fun x y => (fst x <= fst y)%N) select -> visited select dbg F cx se ->
  let p := se_prop se in
  exists cx' p' D C, reduce select cx se = Ret (cx', with_prop se p') /\
    lists cref C (fun r => exists h c, deletable p r h c) /\
    NoDup D /\ incl D C /\ length D = length C - S (length C / 2) /\
    (forall r1 h1 c1 r2 h2 c2, deletable p r1 h1 c1 -> deletable p r2 h2 c2 -> In r1 D -> ~ In r2 D ->
       (clause_score (lh_used h2 - 1) (lh_glue h2) (N.of_nat (length c2)) <=
        clause_score (lh_used h1 - 1) (lh_glue h1) (N.of_nat (length c1)))%N) /\
    (forall r h c, clause_at p r h c -> ~ In r D -> exists h', clause_at p' r h' c /\
       lh_redundant h' = lh_redundant h /\ lh_glue h' = lh_glue h /\ lh_search_pos h' = lh_search_pos h /\
       lh_protected h' = false /\
       (lh_redundant h = true -> ~ is_reason p r -> (2 < lh_glue h)%N -> lh_used h' = (lh_used h - 1)%N) /\
       (lh_redundant h = false \/ is_reason p r \/ (lh_glue h <= 2)%N -> lh_used h' = lh_used h)) /\
    (forall r h c, clause_at p' r h c -> ~ In r D /\ exists h0, clause_at p r h0 c) /\
    p_trail p' = p_trail p /\ p_values p' = p_values p /\ p_binary p' = p_binary p /\ p_watches p' = p_watches p /\ p_unsat p' = p_unsat p /\
    st_redundant (cx_stats cx') + length D = st_redundant (cx_stats cx) /\
    st_reductions (cx_stats cx') = st_reductions (cx_stats cx) + 1 /\
    (exists cs, Forall2 (fun r c => exists h, clause_at p r h c) D cs /\
       cx_proof cx' = option_map (fun l => l ++ map PDelete cs) (cx_proof cx)).
Proof.
  intros Hs HV p. destruct (visited_SI _ _ _ _ _ (select_any _ _ Hs) HV) as (K & L & st & es & HK & H).
  pose proof (s_pi _ _ _ _ _ _ _ _ H) as HP. fold p in HP.
  destruct (reduce_ok select _ Hs (cnf_vars F) F es cx se) as (cx' & es' & a' & D & lls & E & R & M); try apply H.
  destruct R as [R1 R2 R3 R4 R5 R6 R7 R8 _]. destruct M as [M1 M2 M3]. fold p in R1, R3, R4, R6, M1, M2, M3.
  set (p' := p_set_long p a') in *. set (ss := t_steps (p_trail p)) in *.
  exists cx', p', D, (map le_ref (filter (eligibleb ss) es)). split; [exact E|].
  assert (ND : NoDup (map le_ref es)) by apply (LR_nodup _ _ (pi_lr _ _ _ _ HP)).
  assert (CI : forall r, In r (map le_ref (filter (eligibleb ss) es)) <-> exists h c, deletable p r h c).
  { intro r. rewrite in_map_iff. split.
    - intros ([[r0 h] c] & Er & Hi). apply filter_In in Hi as [Hi He]. apply eligible_iff in He. unfold le_ref in Er; cbn [fst] in Er; subst r0.
      exists h, c. apply (deletable_iff _ es _ _ _ _ HP). auto.
    - intros (h & c & Hd). apply (deletable_iff _ es _ _ _ _ HP) in Hd as [Hi He]. exists (r, h, c). split; auto. apply filter_In. split; auto. apply eligible_iff; auto. }
  split; [split; [|exact CI]|].
  { clear -ND. induction es as [|e es IH]; cbn [filter map] in *; [constructor|]. apply NoDup_cons_iff in ND as [N1 N2]. destruct (eligibleb ss e); auto.
    cbn [map]. constructor; auto. intro G. apply N1. apply in_map_iff in G as (x & Ex & Hx). apply filter_In in Hx as [Hx _]. rewrite <- Ex. apply in_map; auto. }
  split; auto. split.
  { intros r Hr. apply CI. clear -R4 Hr HP. induction R4 as [|x l D lls (h & A & B) F2 IH]; [contradiction|]. destruct Hr as [<-|Hr]; auto.
    exists h, l. apply (deletable_iff _ es _ _ _ _ HP). auto. }
  split; [rewrite map_length; exact M2|]. split.
  { intros r1 h1 c1 r2 h2 c2 D1 D2 I1 I2. apply (deletable_iff _ es _ _ _ _ HP) in D1 as [X1 Y1]. apply (deletable_iff _ es _ _ _ _ HP) in D2 as [X2 Y2].
    apply (M3 ltac:(intros; lia) (r2, h2, c2) (r1, h1, c1) X2 X1 Y2 Y1); auto. }
  split.
  { intros r h c Hc Nd. apply (clause_at_iff _ es _ _ _ _ HP) in Hc as [Hi Hc].
    assert (FF : Forall2 (fun e e' => red_rel D e e' /\ (le_live e = true -> lh_used (le_hdr e') = used_after ss e)) es es').
    { clear -R3 M1. induction R3; inversion M1; subst; constructor; auto. split; auto. tauto. }
    destruct (Forall2_in_l _ _ _ _ FF Hi) as ([[r' h'] c'] & Hi' & (A1 & A2 & A3 & A4 & A5) & A6).
    unfold le_ref, le_hdr, le_lits in *. cbn [fst snd] in *. subst r'.
    assert (Ed : existsb (Nat.eqb r) D = false) by (destruct (existsb (Nat.eqb r) D) eqn:G; auto; apply existsb_eqb in G; contradiction).
    rewrite Ed in A5. subst c'. exists h'. split; [apply (clause_at_iff _ es' _ _ _ _ R1); auto|]. split; auto. split; auto. split; auto.
    split; [eapply R2; eauto|]. rewrite A6 by (apply (le_live_ne r h c); auto). unfold used_after. rewrite (proj2 (le_live_ne r h c) Hc).
    unfold le_hdr, le_ref; cbn [fst snd andb]. pose proof (isreason_spec ss r) as IR. unfold is_reason. fold ss. split.
    - intros X1 X2 X3. rewrite X1. destruct (isreason ss r); [exfalso; apply X2; apply IR; auto|]. destruct (N.ltb_spec 2 (lh_glue h)); [reflexivity|lia].
    - intros [X|[X|X]]; [rewrite X; reflexivity| |].
      + apply IR in X. rewrite X, andb_false_r. reflexivity.
      + destruct (N.ltb_spec 2 (lh_glue h)); [lia|]. rewrite andb_false_r. reflexivity. }
  split.
  { intros r h c Hc. apply (clause_at_iff _ es' _ _ _ _ R1) in Hc as [Hi Hc].
    destruct (Forall2_in_r _ _ _ _ R3 Hi) as ([[r' h'] c'] & Hi' & (A1 & A2 & A3 & A4 & A5)).
    unfold le_ref, le_hdr, le_lits in *. cbn [fst snd] in *. subst r'. destruct (existsb (Nat.eqb r) D) eqn:G; [contradiction|]. subst c'.
    split; [intro X; apply existsb_eqb in X; congruence|]. exists h'. apply (clause_at_iff _ es _ _ _ _ HP). auto. }
  do 5 (split; [reflexivity|]).
  assert (Ell : length lls = length D) by (clear -R4; induction R4; cbn [length]; auto).
  split. { rewrite R7. cbn [del_ctx cx_stats del_stats st_redundant bump_reductions cx_with]. rewrite (sti_red _ _ _ _ _ (s_st _ _ _ _ _ _ _ _ H)). lia. }
  split. { rewrite R7. reflexivity. }
  exists lls. split.
  { clear -R4 HP. induction R4 as [|r c D lls (h & Hi & He) F2 IH]; constructor; auto. exists h. apply (clause_at_iff _ es _ _ _ _ HP). split; auto. destruct He as [He _]. apply (le_live_ne r h c). auto. }
  rewrite R7. cbn [del_ctx cx_proof bump_reductions cx_with]. destruct (cx_proof cx); reflexivity.
Qed.

(** Two reductions after 40 steps clear the usage counters.  The third one finds
    deletable clauses and deletes four. *)
Definition reduce3 (s : solver) : res (ctx * search) * res (ctx * search) :=
  let r2 := let* (cx1, se1) := reduce select_sort (so_ctx s) (sta_search (so_state s)) in reduce select_sort cx1 se1 in
  (r2, let* (cx2, se2) := r2 in reduce select_sort cx2 se2).
Example reduce_example : exists cx se cx' se',
  select_ok (fun x y => (fst x <= fst y)%N) select_sort /\ visited select_sort true php5 cx se /\
  reduce select_sort cx se = Ret (cx', se') /\ st_redundant (cx_stats cx) = 16 /\ st_redundant (cx_stats cx') = 12.
Proof.
  set (s := after true 40 (added true php5)).
  destruct (reduce select_sort (so_ctx s) (sta_search (so_state s))) as [[cx1 se1]| |] eqn:E1; try (vm_compute in E1; discriminate).
  destruct (reduce select_sort cx1 se1) as [[cx2 se2]| |] eqn:E2.
  2,3: assert (X : fst (reduce3 s) = reduce select_sort cx1 se1) by (unfold reduce3; rewrite E1; reflexivity); rewrite E2 in X; vm_compute in X; discriminate.
  destruct (reduce select_sort cx2 se2) as [[cx3 se3]| |] eqn:E3.
  2,3: assert (X : snd (reduce3 s) = reduce select_sort cx2 se2) by (unfold reduce3; rewrite E1; cbn [bind snd]; rewrite E2; reflexivity); rewrite E3 in X; vm_compute in X; discriminate.
  exists cx2, se2, cx3, se3. split; [|split; [|split; [auto|]]].
  - intros xs k Hk. pose proof (select_sort_ok xs k Hk) as G. destruct (select_sort xs k) as [[lo m] hi]. unfold pair_le in G. intuition.
    + specialize (H0 x H2). lia.
    + specialize (H3 x H2). lia.
  - eapply vis_reduce; [|exact E2]. eapply vis_reduce; [|exact E1]. apply vis_solver, reach_after. constructor. apply php5_built.
  - assert (X2 : match fst (reduce3 s) with Ret (cx, _) => st_redundant (cx_stats cx) | _ => 0 end = st_redundant (cx_stats cx2)).
    { unfold reduce3. rewrite E1. cbn [bind fst]. rewrite E2. reflexivity. }
    assert (X3 : match snd (reduce3 s) with Ret (cx, _) => st_redundant (cx_stats cx) | _ => 0 end = st_redundant (cx_stats cx3)).
    { unfold reduce3. rewrite E1. cbn [bind snd]. rewrite E2. cbn [bind]. rewrite E3. reflexivity. }
    rewrite <- X2, <- X3. split; vm_compute; reflexivity.
Qed.

(** ** C44 *)
Lemma list_sum_nth (l : list nat) : list_sum l = list_sum (map (fun i => nth i l 0) (seq 0 (length l))).
Proof.
  induction l as [|a l IH]; [reflexivity|]. cbn [length seq map list_sum fold_right nth]. rewrite <- seq_shift, map_map. unfold list_sum in *. rewrite IH at 1. reflexivity.
Qed.
Lemma list_sum_add {A} (f g : A -> nat) l : list_sum (map (fun x => f x + g x) l) = list_sum (map f l) + list_sum (map g l).
Proof. induction l as [|a l IH]; [reflexivity|]. unfold list_sum in *. cbn [map fold_right]. rewrite IH. lia. Qed.
Lemma list_sum_zero {A} (l : list A) : list_sum (map (fun _ => 0) l) = 0.
Proof. induction l; auto. Qed.
Lemma list_sum_one k m : k < m -> list_sum (map (fun i => if i =? k then 1 else 0) (seq 0 m)) = 1.
Proof.
  intro H. assert (G : forall m a, list_sum (map (fun i => if i =? k then 1 else 0) (seq a m)) = if (a <=? k) && (k <? a + m) then 1 else 0).
  { clear. induction m as [|m IH]; intro a; cbn [seq map]; [destruct (Nat.leb_spec a k), (Nat.ltb_spec k (a + 0)); auto; lia|].
    unfold list_sum in *. cbn [fold_right]. rewrite IH. destruct (Nat.eqb_spec a k), (Nat.leb_spec (S a) k), (Nat.leb_spec a k), (Nat.ltb_spec k (S a + m)), (Nat.ltb_spec k (a + S m)); cbn [andb]; lia. }
  rewrite G. destruct (Nat.leb_spec 0 k), (Nat.ltb_spec k (0 + m)); auto; lia.
Qed.
Lemma binary_sum b C : (forall x, Permutation (bin b x) (flat_map (binof x) C)) ->
  list_sum (map (@length N) b) = 2 * length (filter binb C).
Proof.
  intro H. rewrite list_sum_nth, map_length.
  assert (HB : forall u v, In [u; v] C -> cidx u < length b /\ cidx v < length b).
  { assert (W : forall u v, (In [u; v] C \/ In [v; u] C) -> cidx u < length b).
    { intros u v Hi. assert (G : In v (bin b u)).
      { eapply Permutation_in; [apply Permutation_sym, H|]. apply in_flat_map. destruct Hi as [Hi|Hi]; eexists; (split; [exact Hi|]); apply binof_in; auto. }
      destruct (Nat.lt_ge_cases (cidx u) (length b)) as [L|L]; auto. unfold bin in G. rewrite nth_overflow in G by lia. contradiction. }
    intros u v Hi. split; eapply W; eauto. }
  transitivity (list_sum (map (fun i => length (flat_map (binof (N.of_nat i)) C)) (seq 0 (length b)))).
  { f_equal. apply map_ext. intro i. change 0 with (length (@nil N)). rewrite map_nth. rewrite <- (Permutation_length (H (N.of_nat i))). unfold bin, cidx. rewrite Nat2N.id. reflexivity. }
  clear H. induction C as [|c C IH]; [apply list_sum_zero|]. cbn [flat_map].
  rewrite (map_ext _ (fun i => length (binof (N.of_nat i) c) + length (flat_map (binof (N.of_nat i)) C))) by (intro; apply app_length).
  rewrite list_sum_add, IH by (intros u v Hi; apply HB; right; auto). cbn [filter].
  assert (Z : (forall i, binof (N.of_nat i) c = []) /\ binb c = false \/ exists u v, c = [u; v] /\ binb c = true).
  { destruct c as [|u [|v [|w r]]]; [left|left|right|left]; try (split; reflexivity). eauto. }
  destruct Z as [[Z1 Z2]|(u & v & Z1 & Z2)]; rewrite Z2.
  - rewrite (map_ext _ (fun _ => 0)) by (intro; rewrite Z1; auto). rewrite list_sum_zero. reflexivity.
  - destruct (HB u v) as [Hu Hv]; [left; auto|].
    rewrite (map_ext _ (fun i => (if i =? cidx u then 1 else 0) + (if i =? cidx v then 1 else 0))).
    2:{ intro i. rewrite Z1. unfold binof, cidx. rewrite app_length. f_equal.
        - destruct (N.eqb_spec (N.of_nat i) u), (Nat.eqb_spec i (N.to_nat u)); auto; lia.
        - destruct (N.eqb_spec (N.of_nat i) v), (Nat.eqb_spec i (N.to_nat v)); auto; lia. }
    rewrite list_sum_add, !list_sum_one by auto. cbn [length]. lia.
Qed.
(** The clause counters count the clauses that are stored. *)
Theorem stats_count select dbg F cx se :
  select_ok (fun _ _ => True) select -> visited select dbg F cx se ->
  let p := se_prop se in
  (exists C, lists cref C (fun r => exists h c, clause_at p r h c /\ lh_redundant h = true) /\ st_redundant (cx_stats cx) = length C) /\
  (exists C, lists cref C (fun r => exists h c, clause_at p r h c /\ lh_redundant h = false) /\ st_irredundant (cx_stats cx) = length C) /\
  st_irredundant (cx_stats cx) = length (filter (fun c => 3 <=? length c) F) /\
  2 * st_binary (cx_stats cx) = list_sum (map (@length N) (p_binary p)) /\
  (forall v, v < st_vars (cx_stats cx) <-> has_var F v).
Proof.
  intros Hs HV p. destruct (visited_SI _ _ _ _ _ Hs HV) as (K & L & st & es & HK & H).
  pose proof (s_pi _ _ _ _ _ _ _ _ H) as HP. fold p in HP. pose proof (s_st _ _ _ _ _ _ _ _ H) as [S1 S2 S3 S4].
  assert (ND : NoDup (map le_ref es)) by apply (LR_nodup _ _ (pi_lr _ _ _ _ HP)).
  assert (G : forall b, lists cref (map le_ref (filter (fun e => le_live e && Bool.eqb (lh_redundant (le_hdr e)) b) es))
       (fun r => exists h c, clause_at p r h c /\ lh_redundant h = b)).
  { intro b. split.
    - clear -ND. induction es as [|e es IH]; cbn [filter map] in *; [constructor|]. apply NoDup_cons_iff in ND as [N1 N2]. destruct (_ && _); auto.
      cbn [map]. constructor; auto. intro G. apply N1. apply in_map_iff in G as (x & Ex & Hx). apply filter_In in Hx as [Hx _]. rewrite <- Ex. apply in_map; auto.
    - intro r. rewrite in_map_iff. split.
      + intros ([[r0 h] c] & Er & Hi). apply filter_In in Hi as [Hi He]. unfold le_ref in Er; cbn [fst] in Er; subst r0.
        apply andb_true_iff in He as [He1 He2]. apply Bool.eqb_prop in He2. exists h, c. split; auto. apply (clause_at_iff _ es _ _ _ _ HP). split; auto. apply (le_live_ne r h c); auto.
      + intros (h & c & Hc & Hb). apply (clause_at_iff _ es _ _ _ _ HP) in Hc as [Hi Hc]. exists (r, h, c). split; auto. apply filter_In. split; auto.
        apply andb_true_iff. split; [apply (le_live_ne r h c); auto|]. unfold le_hdr; cbn [fst snd]. rewrite Hb. apply Bool.eqb_reflx. }
  split; [eexists; split; [apply (G true)|]|split; [eexists; split; [apply (G false)|]|]].
  - rewrite S1. unfold live. rewrite !map_length. reflexivity.
  - rewrite S2. unfold live. rewrite !map_length. reflexivity.
  - split; [|split].
    + rewrite S2. rewrite (meq_length _ _ (db_irr _ _ _ _ _ _ (s_db _ _ _ _ _ _ _ _ H))). reflexivity.
    + rewrite S3. symmetry. apply binary_sum. apply (db_bin _ _ _ _ _ _ (s_db _ _ _ _ _ _ _ _ H)).
    + intro v. rewrite S4. symmetry. apply has_var_lt.
Qed.

Example stats_example : let s := after true 40 (added true php5) in
  visited select_sort true php5 (so_ctx s) (sta_search (so_state s)) /\
  st_redundant (cx_stats (so_ctx s)) = 16 /\ st_irredundant (cx_stats (so_ctx s)) = 5 /\ st_binary (cx_stats (so_ctx s)) = 41.
Proof. split; [apply vis_solver, reach_after; constructor; apply php5_built|]. vm_compute. auto. Qed.

(** ** C45 *)
Lemma vars_NoDup n vals ss : VR n vals (slits ss) -> dupK 0 ss -> NoDup (map vidx (slits ss)).
Proof. intros HV H. eapply vidx_cons_nodup; eauto; [apply dupK_0; auto|apply incl_refl]. Qed.

Definition trail_var (p : prop) (v : nat) : Prop := exists l, In l (trail_lits p) /\ N.to_nat (l / 2) = v.

(** Partial: in release builds only if no unit clause was added twice. *)
Theorem fixed_vars_exact_partial select dbg F cx se cx' p' :
  select_ok (fun _ _ => True) select -> visited select dbg F cx se -> dbg = true \/ distinct_units F ->
  propagate dbg cx (se_prop se) = Ret (cx', p', None) -> decision_level (p_trail p') = 0 ->
  exists V, lists nat V (trail_var p') /\ st_fixed_vars (cx_stats cx') = length V.
Proof.
  intros Hs HV HN E Hd. destruct (visited_SI _ _ _ _ _ Hs HV) as (K & L & st & es & HK & H). destruct HK as [HK _]; specialize (HK HN); subst K.
  destruct (SI_propagate dbg _ _ _ _ _ _ _ _ H) as (cx1 & p1 & es1 & r & E1 & H1 & X & Q & R). rewrite E in E1. inversion E1; subst cx1 p1 r.
  destruct R as [_ ->]. exists (map vidx (slits (t_steps (p_trail p')))). split.
  - split.
    + eapply vars_NoDup; [apply (s_pi _ _ _ _ _ _ _ _ H1)|]. apply (s_dup _ _ _ _ _ _ _ _ H1).
    + intro v. unfold trail_var, trail_lits. rewrite in_map_iff. split; intros (l & A & B); exists l; rewrite ?vidx_half in *; auto.
  - unfold prop_stats, cx_with; cbn [cx_stats st_fixed_vars]. rewrite Hd, Nat.eqb_refl. unfold fixed_var_count.
    assert (HP := s_pi _ _ _ _ _ _ _ _ H1). cbn [se_prop] in HP. rewrite (tr_dl (cnf_vars F)) in Hd by apply HP. rewrite (tr_hd _ _ (pi_tr _ _ _ _ HP)).
    destruct (tl (t_decisions (p_trail p'))); [|discriminate]. cbn [nth_error]. rewrite !map_length. reflexivity.
Qed.
Theorem fixed_vars_bound_partial select dbg F cx se :
  select_ok (fun _ _ => True) select -> visited select dbg F cx se -> dbg = true \/ distinct_units F ->
  st_fixed_vars (cx_stats cx) <= st_vars (cx_stats cx).
Proof.
  intros Hs HV HN. destruct (visited_SI _ _ _ _ _ Hs HV) as (K & L & st & es & HK & H). rewrite (proj1 HK HN) in H.
  rewrite (sti_vars _ _ _ _ _ (s_st _ _ _ _ _ _ _ _ H)). apply (s_fix _ _ _ _ _ _ _ _ H).
Qed.

(** The count the trail itself offers is that of the variables assigned at
    decision level 0, at any time. *)
Definition level0_var (p : prop) (v : nat) : Prop :=
  exists s, In s (t_steps (p_trail p)) /\ s_level s = 0 /\ N.to_nat (s_lit s / 2) = v.
Lemma NoDup_firstn {A} (l : list A) k : NoDup l -> NoDup (firstn k l).
Proof.
  intro H. rewrite <- (firstn_skipn k l) in H. revert H. generalize (firstn k l). induction l0 as [|x l0 IH]; cbn; intro H; [constructor|].
  inversion H; subst. constructor; [rewrite in_app_iff in *; tauto|auto].
Qed.
Theorem fixed_var_count_partial select dbg F cx se :
  select_ok (fun _ _ => True) select -> visited select dbg F cx se -> dbg = true \/ distinct_units F ->
  exists V, lists nat V (level0_var (se_prop se)) /\ fixed_var_count (p_trail (se_prop se)) = length V.
Proof.
  intros Hs HV HN. destruct (visited_SI _ _ _ _ _ Hs HV) as (K & L & st & es & HK & H). destruct HK as [HK _]; specialize (HK HN); subst K.
  pose proof (s_pi _ _ _ _ _ _ _ _ H) as HP. pose proof (pi_tr _ _ _ _ HP) as HT.
  pose proof (vars_NoDup _ _ _ (pi_vr _ _ _ _ HP) (s_dup _ _ _ _ _ _ _ _ H)) as ND.
  assert (A : firstn (fixed_var_count (p_trail (se_prop se))) (t_steps (p_trail (se_prop se))) =
    filter (fun s => s_level s <=? 0) (t_steps (p_trail (se_prop se))) /\ fixed_var_count (p_trail (se_prop se)) <= length (t_steps (p_trail (se_prop se)))).
  { unfold fixed_var_count. pose proof (tr_hd _ _ HT) as Hh. rewrite Hh. change (nth_error (0 :: tl (t_decisions (p_trail (se_prop se)))) 1) with (nth_error (tl (t_decisions (p_trail (se_prop se)))) 0). clear Hh.
    destruct (nth_error (tl (t_decisions (p_trail (se_prop se)))) 0) as [target|] eqn:Et.
    - destruct (filter_levels _ _ _ _ HT Et) as [-> _]. split; auto. pose proof (proj1 (back_target _ _ _ _ HT Et)). lia.
    - rewrite firstn_all. split; [|lia]. symmetry. apply filter_all. intros s Hi. apply In_nth_error in Hi as [i Hi].
      pose proof (tr_lev_le _ _ HT _ _ Hi) as G. rewrite (tr_dl _ _ HT) in G. apply nth_error_None in Et. apply Nat.leb_le. lia. }
  destruct A as [A B]. set (k := fixed_var_count _) in *. exists (map vidx (slits (firstn k (t_steps (p_trail (se_prop se)))))). split; [split|].
  - replace (map vidx (slits (firstn k (se_ss se)))) with (firstn k (map vidx (slits (se_ss se)))) by (rewrite !List.firstn_map; reflexivity). apply NoDup_firstn. exact ND.
  - intro v. rewrite A. unfold level0_var. rewrite in_map_iff. split.
    + intros (l & <- & Hl). apply in_map_iff in Hl as (s & <- & Hs'). apply filter_In in Hs' as [C D]. apply Nat.leb_le in D.
      exists s. rewrite vidx_half. repeat split; auto. lia.
    + intros (s & C & D & E). exists (s_lit s). rewrite vidx_half. split; auto. apply in_map. apply filter_In. split; auto. apply Nat.leb_le. lia.
  - rewrite !map_length, firstn_length. lia.
Qed.
(** With the clauses below, after the first decision three variables are assigned
    at level 0. *)
Example fixed_var_count_example : let F := [[1]; [0; 3]; [2; 4]; [7; 9]]%N in let p := se_prop (sta_search (so_state (after false 1 (added false F)))) in
  decision_level (p_trail p) = 1 /\ length (t_steps (p_trail p)) = 4 /\ fixed_var_count (p_trail p) = 3.
Proof. vm_compute. auto. Qed.

(** Three variables follow from the unit clauses, one is open. *)
Example fixed_vars_example : let F := [[1]; [0; 3]; [2; 4]; [5; 6; 7]]%N in let s := added false F in
  distinct_units F /\ visited select_sort false F (so_ctx s) (sta_search (so_state s)) /\
  exists cx' p', propagate false (so_ctx s) (se_prop (sta_search (so_state s))) = Ret (cx', p', None) /\
    decision_level (p_trail p') = 0 /\ st_fixed_vars (cx_stats cx') = 3 /\ st_vars (cx_stats cx') = 4.
Proof.
  cbv zeta. split; [repeat constructor; cbn; intuition discriminate|]. split; [apply vis_solver; constructor; apply built_added; reflexivity|].
  eexists _, _. split; [vm_compute; reflexivity|]. repeat split.
Qed.

(** The full statement does not hold: in release builds, the unit clause added
    twice is counted twice, beyond the number of variables. *)
Theorem fixed_vars_refuted :
  exists F cx se cx' p', valid_cnf F /\ visited select_sort false F cx se /\
    propagate false cx (se_prop se) = Ret (cx', p', None) /\ decision_level (p_trail p') = 0 /\
    (forall v, trail_var p' v <-> v = 0) /\ st_vars (cx_stats cx') = 1 /\ st_fixed_vars (cx_stats cx') = 2.
Proof.
  set (F := [[1]; [1]]%N). set (s := added false F).
  destruct (propagate false (so_ctx s) (se_prop (sta_search (so_state s)))) as [[[cx' p'] r]| |] eqn:E; try (vm_compute in E; discriminate).
  exists F, (so_ctx s), (sta_search (so_state s)), cx', p'.
  assert (E' := E). vm_compute in E'. inversion E' as [[A B C]].
  split; [apply valid_cnfb_ok; reflexivity|]. split; [apply vis_solver; constructor; apply built_added; reflexivity|].
  split; [vm_compute; reflexivity|]. split; [reflexivity|]. split; [|split; reflexivity].
  intro v. unfold trail_var, trail_lits; cbn. split; [intros (l & [<-|[<-|[]]] & <-); reflexivity|intros ->]. exists 1%N. auto.
Qed.

(** ** C46 *)
(** The polarity a decision uses is that of the variable's last undone
    assignment, and negative if it was never assigned. *)
Lemma last_phase_var v ls : N.to_nat (last_phase v ls / 2) = v.
Proof.
  unfold last_phase. destruct (find _ _) as [l|] eqn:E.
  - apply find_some in E as [_ E]. apply Nat.eqb_eq in E. auto.
  - rewrite N.mul_comm, N.div_mul by lia. lia.
Qed.
Theorem phase_saved select dbg F evs cx se v :
  select_ok (fun _ _ => True) select -> searched select dbg F evs cx se -> has_var F v ->
  decide_phase (se_phases se) v = Ret (last_phase v (all_undone evs)).
Proof.
  intros Hs H Hv. apply has_var_lt in Hv. destruct (searched_phases _ _ _ _ _ _ Hs H) as (HL & HN & _).
  unfold decide_phase. rewrite (vget_nth false) by lia. cbn [bind]. rewrite HN by auto. f_equal. rewrite lit_from_var_mk.
  unfold last_phase. change (find _ _) with (saved v (all_undone evs)). destruct (saved v (all_undone evs)) as [l|] eqn:E; unfold mklit.
  - apply saved_some in E. rewrite vidx_half in E. pose proof (N.div_mod l 2). rewrite <- (N.bit0_mod l), N.bit0_odd in H0. rewrite <- E, N2Nat.id.
    destruct (N.odd l); cbn [N.b2n] in H0; lia.
  - lia.
Qed.
(** Deciding the first variable false makes the second one true; after a restart
    both have been undone, and the second one will be decided true. *)
Example phase_example : exists evs cx se, searched select_sort true [[1; 3]]%N evs cx se /\
  all_undone evs = [0; 3]%N /\ last_phase 0 (all_undone evs) = 0%N /\ last_phase 1 (all_undone evs) = 3%N.
Proof.
  eexists _, _, _. split.
  - eapply sea_restart; [eapply sea_model; [eapply sea_decide; [apply sea_start, built_added; reflexivity|vm_compute; reflexivity..]|vm_compute; reflexivity..]|vm_compute; reflexivity].
  - vm_compute. auto.
Qed.
Theorem decision_phase select dbg F evs cx se r cx' se' :
  select_ok (fun _ _ => True) select -> searched select dbg F evs cx se ->
  search_step dbg cx se = Ret (r, cx', se') ->
  decision_level (p_trail (se_prop se')) = S (decision_level (p_trail (se_prop se))) ->
  exists v ls, trail_lits (se_prop se') = ls ++ [last_phase v (all_undone evs)] /\
    true_at (se_prop se') (last_phase v (all_undone evs)) (decision_level (p_trail (se_prop se'))).
Proof.
  intros Hs H E Hd. unfold search_step in E. destruct (p_unsat (se_prop se)) eqn:Eu; [inversion E; subst; lia|].
  destruct (visited_SI _ _ _ _ _ Hs (searched_visited _ _ _ _ _ _ H)) as (K & L & st & es & HK & HI).
  destruct (prop_collect_garbage dbg (se_prop se)) as [p0| |] eqn:E0; try discriminate. cbn [bind] in E.
  pose proof (sea_collect _ _ _ _ _ _ _ H E0) as H0.
  assert (Edl : decision_level (p_trail p0) = decision_level (p_trail (se_prop se))).
  { unfold prop_collect_garbage in E0. destruct (should_collect_garbage _); [|inversion E0; auto]. unfold collect_garbage_now in E0.
    destruct (_ <=? _)%N; [|discriminate]. destruct (long_collect _) as [[lg gaps]| |]; try discriminate. cbn [bind] in E0.
    destruct (trail_update_refs _ _) as [t'| |] eqn:Et; try discriminate. cbn [bind] in E0. destruct (watches_update_refs _ _ _); try discriminate. cbn [bind] in E0.
    inversion E0; subst; auto. unfold trail_update_refs in Et. destruct (mapM _ _); try discriminate. inversion Et; auto. }
  clear HI HK. destruct (visited_SI _ _ _ _ _ Hs (searched_visited _ _ _ _ _ _ H0)) as (K0 & L0 & st0 & es0 & HK & HI).
  destruct (SI_propagate dbg _ _ _ _ _ _ _ _ HI) as (cx1 & p1 & es1 & r1 & E1 & H1 & X & Q & R). cbn [with_prop se_prop se_analysis se_vsids se_phases] in *.
  rewrite E1 in E. cbn [bind] in E. destruct X as (_ & Ed & _). assert (Edl1 : decision_level (p_trail p1) = decision_level (p_trail p0)) by (unfold decision_level; rewrite Ed; auto).
  destruct r1 as [c|].
  - destruct (Nat.eqb_spec (decision_level (p_trail p1)) 0) as [Z|Z]; [inversion E; subst; cbn [se_prop] in Hd; cbn [p_set_unsat p_trail] in Hd; lia|].
    destruct R as [Hc _]. assert (H2 : SI K0 (cnf_vars F) F L0 st0 es1 (bump_conflicts cx1) (mkSearch p1 (se_analysis se) (se_vsids se) (se_phases se))).
    { eapply SI_ctx; [exact H1|reflexivity..|]. apply (s_fix _ _ _ _ _ _ _ _ H1). }
    exfalso.
    destruct (analyze_ok (cnf_vars F) es1 p1 dbg (bump_conflicts cx1) (se_analysis se) c (mkCb (se_vsids se) (se_phases se))) as (cl & _ & [[A _]|A]); auto; try lia; try apply H2.
    { rewrite A in E. discriminate. }
    destruct A as (cx3 & an & p3 & cb & es2 & es3 & h & a & rest & rr & level & target & A & Z3). rewrite A in E. cbn [bind] in E. inversion E; subst. cbn [se_prop] in *.
    revert Hd. unfold decision_level at 1. rewrite (az_ds _ _ _ _ _ _ _ _ _ _ _ _ _ _ _ _ _ _ Z3), firstn_length. pose proof (az_lt _ _ _ _ _ _ _ _ _ _ _ _ _ _ _ _ _ _ Z3) as Lt. unfold decision_level in *. lia.
  - destruct (pop_decision_var _ _) as [[ov vs]| |] eqn:E2; try discriminate. cbn [bind] in E. destruct ov as [v|].
    + assert (V : has_var F v /\ is_open p1 (2 * N.of_nat v)).
      { destruct (decision_var_ok select dbg F cx1 (mkSearch p1 (se_analysis se) (se_vsids se) (se_phases se)) Hs) as (o & vs' & E3 & G).
        - eapply (vis_propagate _ _ _ _ (with_prop se p0)); [eapply searched_visited; exact H0|exact E1].
        - cbn [se_vsids se_prop] in E3. rewrite E2 in E3. inversion E3; subst. exact G. }
      destruct V as [V O].
      pose proof (phase_saved _ _ _ _ _ _ _ Hs H V) as E3. rewrite E3 in E. cbn [bind] in E.
      destruct (assign_decision _ _ _) as [p2| |] eqn:E4; try discriminate. cbn [bind] in E. inversion E; subst. cbn [se_prop] in *.
      exists v, (trail_lits p1). set (l := last_phase v (all_undone evs)) in *.
      assert (El : vidx l = v) by (rewrite vidx_half; apply last_phase_var).
      assert (Ev : vidx (2 * N.of_nat v) = v) by (rewrite vidx_half; lia).
      assert (N1 : ~ (In l (slits (t_steps (p_trail p1))) \/ In (neg l) (slits (t_steps (p_trail p1))))).
      { rewrite <- vassigned_lit, El, <- Ev, vassigned_lit. unfold is_open, is_true, is_false, trail_lits in O. tauto. }
      pose proof (s_pi _ _ _ _ _ _ _ _ H1) as HP. cbn [se_prop] in HP.
      destruct (assign_decision_ok (cnf_vars F) dbg p1 l) as (v' & E5 & _); [apply HP|apply HP|rewrite El; apply has_var_lt; auto|tauto|tauto|].
      rewrite E4 in E5. inversion E5; subst p2. unfold trail_lits, true_at. cbn [p_set_vt p_trail t_decide t_steps]. split; [rewrite map_app; reflexivity|].
      eexists. split; [apply in_or_app; right; left; reflexivity|]. split; [reflexivity|].
      cbn [p_set_vt p_trail] in Hd. rewrite Hd. cbn [s_level]. rewrite <- Edl, <- Edl1. reflexivity.
    + inversion E; subst. cbn [se_prop] in Hd. lia.
Qed.

(** ** C47 *)
(** The blocking literals of the watches of clause [r] in the list of [x]. *)
Definition watches_for (p : prop) (x : N) (r : cref) : list N :=
  map w_blocking (filter (fun w => Nat.eqb (w_clause w) r) (nth (N.to_nat x) (ws_by_lit (p_watches p)) [])).

Lemma wof_filter es r h c x : NoDup (map le_ref es) -> In (r, h, c) es ->
  filter (fun w => Nat.eqb (w_clause w) r) (flat_map (wof x) es) = wof x (r, h, c).
Proof.
  assert (Z : forall e, filter (fun w => Nat.eqb (w_clause w) r) (wof x e) = if Nat.eqb (le_ref e) r then wof x e else []).
  { intros [[r' h'] c']. unfold wof, le_ref, le_lits; cbn [fst snd]. destruct c' as [|a [|b c']]; [destruct (r' =? r); auto..|].
    destruct (Nat.eqb_spec r' r) as [->|Ne]; destruct (x =? a)%N, (x =? b)%N; cbn [filter app w_clause]; rewrite ?Nat.eqb_refl, ?(proj2 (Nat.eqb_neq r' r) Ne); reflexivity. }
  induction es as [|e es IH]; intros ND Hi; [contradiction|]. cbn [map] in ND. apply NoDup_cons_iff in ND as [N1 N2]. cbn [flat_map]. rewrite filter_app, Z.
  destruct Hi as [->|Hi].
  - unfold le_ref at 1; cbn [fst]. rewrite Nat.eqb_refl. rewrite filter_none; [apply app_nil_r|].
    intros w Hw. apply in_flat_map in Hw as (e & He & Hw). specialize (Z e). destruct (Nat.eqb_spec (w_clause w) r) as [G|G]; auto. exfalso.
    destruct (Nat.eqb_spec (le_ref e) r) as [G2|G2].
    + apply N1. unfold le_ref at 1; cbn [fst]. rewrite <- G2. apply in_map; auto.
    + assert (In w []) as []. rewrite <- Z. apply filter_In. split; auto. apply Nat.eqb_eq; auto.
  - destruct (Nat.eqb_spec (le_ref e) r) as [G|G]; [exfalso; apply N1; rewrite G; change r with (le_ref (r, h, c)); apply in_map; auto|]. apply IH; auto.
Qed.

(** Disabling empties all watch lists.  Enabling them again yields, for every
    live clause, one watch for each of its first two literals, blocked by the
    other one, and no other watches; nothing else changes. *)
Theorem watch_cycle select dbg F cx se :
  select_ok (fun _ _ => True) select -> visited select dbg F cx se ->
  let p := se_prop se in
  exists p1 p2, enable_watch_lists dbg p false = Ret p1 /\ enable_watch_lists dbg p1 true = Ret p2 /\
    (forall x r, watches_for p1 x r = []) /\
    (forall r h a b c, clause_at p r h (a :: b :: c) -> forall x,
       watches_for p2 x r = (if (x =? a)%N then [b] else []) ++ (if (x =? b)%N then [a] else [])) /\
    (forall x w, In w (nth (N.to_nat x) (ws_by_lit (p_watches p2)) []) -> exists h c, clause_at p (w_clause w) h c /\ In x c) /\
    p2 = p_set_watches p (p_watches p2) /\
    visited select dbg F cx (with_prop se p2).
Proof.
  intros Hs HV p. destruct (visited_SI _ _ _ _ _ Hs HV) as (K & L & st & es & HK & H). pose proof (s_pi _ _ _ _ _ _ _ _ H) as HP. fold p in HP.
  destruct (PI_cycle _ es dbg p HP) as (p1 & w' & E1 & W1 & E2 & HP2 & W2). exists p1, (p_set_watches p w').
  split; auto. split; auto. split. { intros x r. unfold watches_for. change (nth _ _ _) with (wfun (ws_by_lit (p_watches p1)) x). rewrite W1. reflexivity. }
  split.
  { intros r h a b c Hc x. apply (clause_at_iff _ es _ _ _ _ HP) in Hc as [Hi _]. unfold watches_for. cbn [p_set_watches p_watches].
    change (nth _ _ _) with (wfun (ws_by_lit w') x). rewrite W2, (wof_filter es r h (a :: b :: c) x) by (auto; apply (LR_nodup _ _ (pi_lr _ _ _ _ HP))).
    unfold wof, le_lits; cbn [snd]. destruct (x =? a)%N, (x =? b)%N; reflexivity. }
  split.
  { intros x w Hw. cbn [p_set_watches p_watches] in Hw. change (nth _ _ _) with (wfun (ws_by_lit w') x) in Hw. rewrite W2 in Hw.
    apply in_flat_map in Hw as ([[r h] c] & Hi & Hw). unfold wof, le_lits, le_ref in Hw; cbn [fst snd] in Hw. destruct c as [|a [|b c]]; try contradiction.
    assert (G : w_clause w = r /\ In x (a :: b :: c)).
    { apply in_app_or in Hw as [Hw|Hw]; [destruct (N.eqb_spec x a)|destruct (N.eqb_spec x b)]; try contradiction; destruct Hw as [<-|[]]; cbn [w_clause In]; auto. }
    destruct G as [-> G]. exists h, (a :: b :: c). split; auto. apply (clause_at_iff _ es _ _ _ _ HP). split; auto. discriminate. }
  split; [reflexivity|]. eapply vis_cycle; eauto.
Qed.

(** ** C51, C52 *)
(** Partial: the literals completed by a propagation that ends in a conflict are
    not counted. *)
Theorem propagations_partial select dbg F evs cx se :
  select_ok (fun _ _ => True) select -> searched select dbg F evs cx se ->
  st_propagations (cx_stats cx) = sum_propagated false evs.
Proof. intros Hs H. pose proof (searched_counters _ _ _ _ _ _ Hs H) as E. unfold counters in E. inversion E; auto. Qed.
Theorem counters_exact select dbg F evs cx se :
  select_ok (fun _ _ => True) select -> searched select dbg F evs cx se ->
  st_decisions (cx_stats cx) = count_events is_decide evs /\ st_conflicts (cx_stats cx) = count_events is_conflict evs /\
  st_restarts (cx_stats cx) = count_events is_restart evs /\ st_reductions (cx_stats cx) = count_events is_reduce evs.
Proof. intros Hs H. pose proof (searched_counters _ _ _ _ _ _ Hs H) as E. unfold counters in E. inversion E; auto. Qed.
(** Every state between two search steps of the solver has such a history. *)
Theorem history_exists select dbg F s : reach select dbg F s ->
  exists evs, searched select dbg F evs (so_ctx s) (sta_search (so_state s)).
Proof. apply searched_reach. Qed.
(** The full statement of C51 does not hold: the literal 1 is completely
    propagated before the conflict, and not counted. *)
Theorem propagations_refuted : exists F evs cx se,
  valid_cnf F /\ searched select_sort true F evs cx se /\
  st_propagations (cx_stats cx) = 0 /\ sum_propagated true evs = 1.
Proof.
  exists [[1]; [0; 3]; [2; 5]; [2; 4]]%N. eexists _, _, _. split; [apply valid_cnfb_ok; reflexivity|]. split.
  - eapply sea_top; [apply sea_start, built_added; reflexivity|vm_compute; reflexivity..].
  - vm_compute. auto.
Qed.
Example counters_example : exists evs, let s := after true 40 (added true php5) in
  searched select_sort true php5 evs (so_ctx s) (sta_search (so_state s)) /\
  count_events is_conflict evs = 17 /\ count_events is_restart evs = 1 /\ 20 < count_events is_decide evs.
Proof.
  destruct (history_exists select_sort true php5 (after true 40 (added true php5))) as (evs & H).
  { apply reach_after; constructor; apply php5_built. }
  exists evs. split; auto. destruct (counters_exact _ _ _ _ _ _ any_select_sort H) as (A & B & C & _). rewrite <- A, <- B, <- C.
  vm_compute. repeat split; repeat constructor.
Qed.

Print Assumptions decision_var_ok.
Print Assumptions restart_schedule.
Print Assumptions restart_first.
Print Assumptions reduce_deletes_worst.
Print Assumptions stats_count.
Print Assumptions fixed_vars_exact_partial.
Print Assumptions fixed_vars_bound_partial. Print Assumptions fixed_var_count_partial.
Print Assumptions fixed_vars_refuted.
Print Assumptions phase_saved.
Print Assumptions decision_phase.
Print Assumptions watch_cycle.
Print Assumptions propagations_partial.
Print Assumptions propagations_refuted.
Print Assumptions counters_exact.
Print Assumptions history_exists.
