(** C37 (what a restart does) and C60 (what a search step does to the
    assignment). *)
From Coq Require Import NArith List Bool Arith Lia Permutation Sorted ZifyN ZifyNat ZifyBool.
From Verif Require Import Model_Base Model_Lit Model_PartialAssignment Model_Header Model_Arena Model_Prop
  Model_Heap Model_Vsids Model_Analysis Model_Luby Model_Solver Spec Proof_Base Proof_PA Proof_Lit
  Proof_Long Proof_Trail Proof_Backtrack Proof_Inv Proof_Propagate Proof_Gc Proof_Analysis Proof_Learn Proof_DB Proof_Reduce Proof_Solver Proof_Search Proof_Solve Proof_Add
  Drivers_Solver Drivers_Search Proof_Main Proof_Select Proof_Visited Examples_Solver Prop_Prop Prop_Analysis Prop_Search.
Import ListNotations.

(** The assigned literals with their levels, in the order of assignment. *)
Definition assignments (p : prop) : list (N * nat) := map (fun s => (s_lit s, s_level s)) (t_steps (p_trail p)).
Definition upto (k : nat) (A : list (N * nat)) : list (N * nat) := filter (fun a => snd a <=? k) A.
Definition level (p : prop) : nat := decision_level (p_trail p).
Definition so_prop (s : solver) : prop := se_prop (sta_search (so_state s)).
Definition decisions (s : solver) : nat := st_decisions (cx_stats (so_ctx s)).

Lemma assignments_upto k p p' : t_steps (p_trail p') = filter (fun s => s_level s <=? k) (t_steps (p_trail p)) ->
  assignments p' = upto k (assignments p).
Proof.
  intro E. unfold assignments, upto. rewrite E. clear E. induction (t_steps (p_trail p)) as [|s ss IH]; auto. cbn [filter map].
  cbn [snd]. destruct (s_level s <=? k); cbn [map]; rewrite IH; reflexivity.
Qed.

(** ** C37: a restart undoes all decisions and their consequences, and nothing
    else *)
Theorem restart_effect select dbg F cx se :
  select_ok (fun _ _ => True) select -> visited select dbg F cx se ->
  let p := se_prop se in
  exists se', restart dbg cx se = Ret (bump_restarts cx, se') /\
    let p' := se_prop se' in
    assignments p' = upto 0 (assignments p) /\ level p' = 0 /\
    p_long p' = p_long p /\ p_binary p' = p_binary p /\ p_watches p' = p_watches p /\ p_unsat p' = p_unsat p.
Proof.
  intros Hs HV p. unfold restart, level. fold p. destruct (Nat.ltb_spec 0 (decision_level (p_trail p))) as [G|G].
  - pose proof (backtrack_exact select dbg F cx se 0 Hs HV) as B. cbv zeta in B. fold p in B. rewrite (proj2 (Nat.ltb_lt _ _) G) in B.
    destruct B as (p' & cb & E & Et & El & _ & E1 & E2 & E3 & _). fold (search_cb se). rewrite E. cbn [bind]. eexists. split; [reflexivity|]. cbn [se_prop].
    split; [apply assignments_upto; exact Et|]. repeat split; auto.
    unfold backtrack_to_level in E. rewrite (proj2 (Nat.ltb_lt _ _) G) in E.
    repeat match type of E with (bind ?x _ = _) => destruct x; cbn [bind] in E; try discriminate end. destruct (_ <=? _); [|discriminate].
    repeat match type of E with (bind ?x _ = _) => destruct x as [[[]]| |]; cbn [bind] in E; try discriminate end. inversion E; reflexivity.
  - exists se. split; [reflexivity|]. fold p. split; [|repeat split; auto; lia].
    unfold assignments, upto. destruct (visited_SI _ _ _ _ _ Hs HV) as (K & L & st & es & HK & H).
    pose proof (pi_tr _ _ _ _ (s_pi _ _ _ _ _ _ _ _ H)) as HT. fold p in HT.
    assert (A : forall s, In s (t_steps (p_trail p)) -> s_level s = 0).
    { intros s Hi. apply In_nth_error in Hi as [i Hi]. pose proof (tr_lev_le _ _ HT _ _ Hi). lia. }
    induction (t_steps (p_trail p)) as [|s ss IH]; auto. cbn [map filter snd]. rewrite (A s (or_introl eq_refl)) at 2. cbn [Nat.leb]. f_equal. apply IH. intros; apply A; right; auto.
Qed.

(** ** C60 *)
(** [step_effect T d r p' dd dc]: starting from the assignments [T] at level [d],
    propagation adds implied literals [ext] of level [d].  Then the formula is
    satisfied; or one decision is made; or there is a conflict: at level 0 the
    formula is unsatisfiable, otherwise the levels above some lower level [k] are
    undone and the negation of a literal of level [d] is assigned at level [k].
    [dd] and [dc] are the numbers of decisions made and of conflicts found. *)
Definition step_effect (T : list (N * nat)) (d : nat) (r : option bool) (p' : prop) (dd dc : nat) : Prop :=
  exists ext, (forall a, In a ext -> snd a = d) /\
   ((r = Some true /\ assignments p' = T ++ ext /\ level p' = d /\ dd = 0 /\ dc = 0) \/
    (r = None /\ (exists l, assignments p' = T ++ ext ++ [(l, S d)]) /\ level p' = S d /\ dd = 1 /\ dc = 0) \/
    (r = Some false /\ d = 0 /\ assignments p' = T ++ ext /\ level p' = 0 /\ dd = 0 /\ dc = 1) \/
    (r = None /\ (exists l k, k < d /\ assignments p' = upto k (T ++ ext) ++ [(l, k)] /\ level p' = k /\ In (neg l, d) (T ++ ext)) /\
       dd = 0 /\ dc = 1)).

Lemma search_step_effect select dbg F cx se r cx' se' :
  select_ok (fun _ _ => True) select -> visited select dbg F cx se -> p_unsat (se_prop se) = false ->
  search_step dbg cx se = Ret (r, cx', se') ->
  exists dd dc, st_decisions (cx_stats cx') = st_decisions (cx_stats cx) + dd /\ st_conflicts (cx_stats cx') = st_conflicts (cx_stats cx) + dc /\
    st_restarts (cx_stats cx') = st_restarts (cx_stats cx) /\
    step_effect (assignments (se_prop se)) (level (se_prop se)) r (se_prop se') dd dc.
Proof.
  intros Hs HV Eu E. unfold search_step in E. rewrite Eu in E.
  destruct (prop_collect_garbage dbg (se_prop se)) as [p0| |] eqn:E0; try discriminate. cbn [bind] in E.
  pose proof (vis_collect _ _ _ _ _ _ HV E0) as H0.
  assert (A0 : assignments p0 = assignments (se_prop se) /\ level p0 = level (se_prop se)).
  { destruct (visited_SI _ _ _ _ _ Hs HV) as (K & L & st & es & HK & H).
    destruct (SI_gc dbg _ _ _ _ _ _ _ _ H) as [[E' _]|(p0' & es0 & f & E' & _ & Es0 & Ed0 & _)]; rewrite E0 in E'; [discriminate|]. inversion E'; subst p0'.
    unfold assignments, level, decision_level. rewrite Es0, Ed0, map_map. split; auto. apply map_ext. intro s. rewrite gc_step_lit, gc_step_level. reflexivity. }
  destruct A0 as [A0 L0]. rewrite <- A0, <- L0. clear A0 L0.
  destruct (propagate dbg cx p0) as [[[cx1 p1] r1]| |] eqn:E1; try discriminate. cbn [bind] in E.
  assert (P : exists ext, (forall a, In a ext -> snd a = level p0) /\ assignments p1 = assignments p0 ++ ext /\ level p1 = level p0 /\
     st_decisions (cx_stats cx1) = st_decisions (cx_stats cx) /\ st_conflicts (cx_stats cx1) = st_conflicts (cx_stats cx) /\
     st_restarts (cx_stats cx1) = st_restarts (cx_stats cx) /\ (r1 = None -> t_propagated (p_trail p1) = length (t_steps (p_trail p1)))).
  { destruct (visited_SI _ _ _ _ _ Hs H0) as (K & L & st & es & HK & H). cbn [with_prop se_prop] in *.
    destruct (SI_propagate dbg _ _ _ _ _ _ _ _ H) as (cx1' & p1' & es1 & r' & E' & H1 & ((ext & Ex & Hx) & Ed & _) & _ & HR). cbn [with_prop se_prop] in *.
    rewrite E1 in E'. inversion E'; subst cx1' p1' r'. exists (map (fun s => (s_lit s, s_level s)) ext).
    assert (El : level p1 = level p0) by (unfold level, decision_level; rewrite Ed; reflexivity).
    split; [|split; [unfold assignments; rewrite Ex, map_app; reflexivity|split; [exact El|]]].
    - intros a Ha. apply in_map_iff in Ha as (s & <- & Hi). cbn [snd]. apply In_nth_error in Hi as [i Hi].
      pose proof (pi_tr _ _ _ _ (s_pi _ _ _ _ _ _ _ _ H1)) as HT1. cbn [se_prop] in HT1.
      pose proof (pi_tr _ _ _ _ (s_pi _ _ _ _ _ _ _ _ H)) as HT0. cbn [with_prop se_prop] in HT0.
      assert (Ei : nth_error (t_steps (p_trail p1)) (length (t_steps (p_trail p0)) + i) = Some s).
      { rewrite Ex, nth_error_app2 by lia. rewrite <- Hi. f_equal. lia. }
      rewrite (tr_lev _ _ HT1 _ _ Ei), Ed. unfold level. rewrite (tr_dl (cnf_vars F) (p_trail p0)) by exact HT0. unfold lvl. rewrite filter_all; auto.
      intros d Hd. apply (tr_ds _ _ HT0) in Hd. apply Nat.leb_le. lia.
    - destruct r1 as [c|]; destruct HR as [HR1 HR2]; rewrite HR2; auto. repeat split; auto. discriminate. }
  destruct P as (ext & Hext & Ea & El & D1 & C1 & R1 & Q1).
  destruct r1 as [c|].
  - destruct (Nat.eqb_spec (decision_level (p_trail p1)) 0) as [Z|Z].
    + inversion E; subst. exists 0, 1. cbn [bump_conflicts cx_with cx_stats st_decisions st_conflicts st_restarts]. split; [lia|]. split; [lia|]. split; auto.
      exists ext. split; auto. right; right; left. unfold level in *. repeat split; auto; lia.
    + destruct (analyze_conflict _ _ _ _ _ _) as [[[[cx3 an] p2] cb]| |] eqn:E2; try discriminate. cbn [bind] in E. inversion E; subst.
      pose proof (fun H => learned_asserting select dbg F cx (with_prop se p0) cx1 p1 c cx' an p2 cb Hs H0 E1 Z H) as LA.
      destruct (LA E2) as (a & rest & k & rr & _ & _ & _ & _ & Hk & Hl & Ht & Ha & _). clear LA.
      assert (SC : st_decisions (cx_stats cx') = st_decisions (cx_stats (bump_conflicts cx1)) /\
        st_conflicts (cx_stats cx') = st_conflicts (cx_stats (bump_conflicts cx1)) /\ st_restarts (cx_stats cx') = st_restarts (cx_stats (bump_conflicts cx1))).
      { clear - Hs H0 E1 E2 Z. destruct (visited_SI _ _ _ _ _ Hs H0) as (K & L & st & es & HK & H).
        destruct (SI_propagate dbg _ _ _ _ _ _ _ _ H) as (cx1' & p1' & es1 & r' & E' & H1 & _ & _ & HR). cbn [with_prop se_prop se_analysis se_vsids se_phases] in *.
        rewrite E1 in E'. inversion E'; subst cx1' p1' r'. destruct HR as [Hc ->].
        set (se1 := mkSearch p1 (se_analysis se) (se_vsids se) (se_phases se)) in *.
        assert (H2 : SI K (cnf_vars F) F L st es1 (bump_conflicts cx) se1). { eapply SI_ctx; [exact H1|..]; try reflexivity. apply H1. }
        destruct (SI_analyze dbg _ _ _ _ _ _ _ se1 c H2 Hc) as [[E3 HF]|R]; [cbn [se_prop se1]; lia|cbn [se_analysis se_prop se_vsids se_phases se1] in E3; unfold search_cb in *; cbn in E2; congruence|].
        destruct R as (cx3 & an' & p' & cb' & es' & cl & level & target & r & a & E3 & _ & _ & _ & _ & _ & (h & Ecx) & _).
        cbn [se_analysis se_prop se_vsids se_phases se1] in E3. rewrite E3 in E2. assert (Q : cx' = cx3) by congruence. rewrite Q, Ecx. cbn [cx_stats].
        rewrite st_add_conflicts, st_add_restarts. split; [|auto]. unfold st_add. destruct cl as [|? [|? [|]]]; auto. destruct (lh_redundant h); auto. }
      destruct SC as (S1 & S2 & S3). exists 0, 1. cbn [bump_conflicts cx_with cx_stats st_decisions st_conflicts st_restarts] in *.
      split; [lia|]. split; [lia|]. split; [lia|]. exists ext. split; auto. right; right; right. split; auto. split; auto. cbn [se_prop].
      exists a, k. rewrite <- Ea, <- El. split; [exact Hk|]. split.
      * unfold assignments. rewrite Ht, map_app. cbn [map s_lit s_level]. f_equal. clear.
        unfold upto. induction (t_steps (p_trail p1)) as [|s ss IH]; auto. cbn [filter map snd]. destruct (s_level s <=? k); cbn [map]; rewrite IH; reflexivity.
      * split; auto. destruct Ha as (s & Hi & Hn & Hd). apply in_map_iff. exists s. split; [|exact Hi]. unfold level. congruence.
  - destruct (pop_decision_var _ _) as [[ov vs]| |] eqn:E2; try discriminate. cbn [bind] in E. destruct ov as [v|].
    + destruct (decide_phase _ _) as [l| |] eqn:E3; try discriminate. cbn [bind] in E.
      destruct (assign_decision _ _ _) as [p2| |] eqn:E4; try discriminate. cbn [bind] in E. inversion E; subst.
      exists 1, 0. cbn [bump_decisions cx_with cx_stats st_decisions st_conflicts st_restarts]. split; [lia|]. split; [lia|]. split; auto.
      exists ext. split; auto. right; left. split; auto. cbn [se_prop].
      assert (G : t_steps (p_trail p2) = t_steps (p_trail p1) ++ [mkStep l (S (level p1)) RDecision] /\ level p2 = S (level p1)).
      { assert (HN : t_decisions (p_trail p1) <> []).
        { pose proof (vis_propagate _ _ _ _ _ _ _ _ H0 E1) as HV1. destruct (visited_SI _ _ _ _ _ Hs HV1) as (K & L & st & es & HK & H).
          pose proof (tr_hd _ _ (pi_tr _ _ _ _ (s_pi _ _ _ _ _ _ _ _ H))) as G. cbn [with_prop se_prop] in G. rewrite G. discriminate. }
        unfold assign_decision, assign in E4. destruct (assign_raw _ _ _ _) as [[v' t']| |] eqn:E5; try discriminate. cbn [bind] in E4. inversion E4; subst p2. clear E4.
        unfold assign_raw, dassert in E5. cbn [p_set_trail p_values p_trail] in E5.
        repeat match type of E5 with (bind ?x _ = _) => destruct x; cbn [bind] in E5; try discriminate | (match ?b with true => _ | false => _ end) = _ => destruct b; try discriminate | (if ?b then _ else _) = _ => destruct b; try discriminate end.
        all: inversion E5; subst; unfold level, decision_level; cbn [p_set_vt p_trail t_steps t_decisions]; rewrite app_length; cbn [length];
          (destruct (t_decisions (p_trail p1)); [contradiction|]; cbn [length]; split; [f_equal; f_equal; f_equal; lia|lia]). }
      destruct G as [G1 G2]. split; [|split; [lia|auto]]. exists l. unfold assignments in *. rewrite G1, map_app, Ea, El, <- app_assoc. reflexivity.
    + inversion E; subst. exists 0, 0. split; [lia|]. split; [lia|]. split; auto. exists ext. split; auto. left. cbn [se_prop]. auto.
Qed.

(** A search step as scheduled: it may restart first, which keeps the top-level
    assignments only.  (Reductions and garbage collections in between do not
    change the assignment.)  If the formula is already known to be unsatisfiable,
    nothing else happens. *)
Theorem step_effect_exact select dbg F s r cx st :
  select_ok (fun _ _ => True) select -> reach select dbg F s ->
  schedule_search_step select dbg (so_ctx s) (so_state s) = Ret (r, cx, st) ->
  let s' := mkSolver cx st in
  let restarted := restarts s <? restarts s' in
  let T := if restarted then upto 0 (assignments (so_prop s)) else assignments (so_prop s) in
  let d := if restarted then 0 else level (so_prop s) in
  restarts s' <= S (restarts s) /\
  (if p_unsat (so_prop s)
   then r = Some false /\ assignments (so_prop s') = T /\ level (so_prop s') = d /\ decisions s' = decisions s /\ conflicts s' = conflicts s
   else exists dd dc, decisions s' = decisions s + dd /\ conflicts s' = conflicts s + dc /\ step_effect T d r (so_prop s') dd dc).
Proof.
  intros Hs HR E. pose proof (vis_solver _ _ _ _ HR) as HV. unfold schedule_search_step in E.
  destruct (should_restart _ _) as [b sc1]. set (se0 := sta_search (so_state s)) in *.
  assert (A : exists cx1 se1, (if b then restart dbg (so_ctx s) se0 else Ret (so_ctx s, se0)) = Ret (cx1, se1) /\ visited select dbg F cx1 se1 /\
    assignments (se_prop se1) = (if b then upto 0 (assignments (so_prop s)) else assignments (so_prop s)) /\ level (se_prop se1) = (if b then 0 else level (so_prop s)) /\
    p_unsat (se_prop se1) = p_unsat (so_prop s) /\ cx1 = (if b then bump_restarts (so_ctx s) else so_ctx s)).
  { destruct b.
    - destruct (restart_effect select dbg F _ _ Hs HV) as (se' & E1 & A1 & A2 & _ & _ & _ & A3). eexists _, se'. split; [exact E1|].
      split; [eapply vis_restart; eauto|]. auto.
    - eexists _, _. split; [reflexivity|]. auto 10. }
  destruct A as (cx1 & se1 & E1 & V1 & A1 & L1 & U1 & C1). rewrite E1 in E. cbn [bind] in E. clear E1.
  destruct (should_reduce _ _) as [b2 sc2].
  assert (A : forall cx2 se2, (if b2 then (let* (cx2, se2) := reduce select cx1 se1 in let* _ := report dbg cx2 in Ret (cx2, se2)) else Ret (cx1, se1)) = Ret (cx2, se2) ->
    visited select dbg F cx2 se2 /\ p_trail (se_prop se2) = p_trail (se_prop se1) /\ p_unsat (se_prop se2) = p_unsat (se_prop se1) /\
    st_decisions (cx_stats cx2) = st_decisions (cx_stats cx1) /\ st_conflicts (cx_stats cx2) = st_conflicts (cx_stats cx1) /\ st_restarts (cx_stats cx2) = st_restarts (cx_stats cx1)).
  { intros cx2 se2 E2. destruct b2; [|inversion E2; subst cx2 se2; auto 10].
    destruct (reduce select cx1 se1) as [[cx2' se2']| |] eqn:E3; try discriminate. cbn [bind] in E2. destruct (report dbg cx2'); try discriminate. cbn [bind] in E2. inversion E2; subst cx2' se2'.
    split; [eapply vis_reduce; eauto|]. destruct (visited_SI _ _ _ _ _ Hs V1) as (K & L & stp & es & HK & H).
    destruct (SI_reduce select _ _ _ _ _ _ _ _ _ Hs H) as (cx' & se' & L' & es' & lls & E4 & _ & Ecx & Eu & Et & _). rewrite E3 in E4. assert (Q1 : cx' = cx2) by congruence. assert (Q2 : se' = se2) by congruence. rewrite Q1 in Ecx. rewrite Q2 in Eu, Et.
    rewrite Ecx. unfold del_ctx, del_stats, bump_reductions, cx_with. cbn. auto. }
  destruct (if b2 then _ else _) as [[cx2 se2]| |]; try discriminate. cbn [bind] in E. destruct (A _ _ eq_refl) as (V2 & T2 & U2 & D2 & C2 & R2). clear A.
  destruct (search_step dbg cx2 se2) as [[[r3 cx3] se3]| |] eqn:E3; try discriminate. cbn [bind] in E. inversion E; subst r3 cx st. clear E.
  assert (AT : assignments (se_prop se2) = assignments (se_prop se1) /\ level (se_prop se2) = level (se_prop se1)) by (unfold assignments, level; rewrite T2; auto).
  destruct AT as [A2 L2].
  assert (RST : st_restarts (cx_stats cx1) = st_restarts (cx_stats (so_ctx s)) + (if b then 1 else 0) /\
    st_decisions (cx_stats cx1) = st_decisions (cx_stats (so_ctx s)) /\ st_conflicts (cx_stats cx1) = st_conflicts (cx_stats (so_ctx s))).
  { rewrite C1. destruct b; cbn; lia. }
  destruct RST as (R1 & D1 & F1). cbv zeta. unfold restarts, decisions, conflicts. cbn [so_ctx]. change (so_prop (mkSolver cx3 (mkState se3 sc2))) with (se_prop se3).
  assert (B : forall k, st_restarts (cx_stats cx3) = st_restarts (cx_stats (so_ctx s)) + (if b then 1 else 0) -> k = (if b then true else false) ->
     (st_restarts (cx_stats (so_ctx s)) <? st_restarts (cx_stats cx3)) = k /\ st_restarts (cx_stats cx3) <= S (st_restarts (cx_stats (so_ctx s)))).
  { intros k Er ->. rewrite Er. destruct b; split; lia. }
  destruct (p_unsat (so_prop s)) eqn:Eu.
  - unfold search_step in E3. rewrite U2, U1 in E3. inversion E3; subst r cx3 se3.
    destruct (B b ltac:(lia) ltac:(destruct b; auto)) as [-> B2]. split; auto. rewrite A2, L2, A1, L1. repeat split; lia.
  - destruct (search_step_effect select dbg F cx2 se2 r cx3 se3 Hs V2 ltac:(congruence) E3) as (dd & dc & S1 & S2 & S3 & S4).
    destruct (B b ltac:(lia) ltac:(destruct b; auto)) as [-> B2]. split; auto. exists dd, dc. rewrite A2, L2, A1, L1 in S4. split; [lia|]. split; [lia|exact S4].
Qed.

(** The first steps on the pigeon hole formula: the first one restarts, then
    three decisions, and the fifth step finds a conflict and jumps back. *)
Example step_effect_example :
  map (fun k => (restarts (at_step php4 k), decisions (at_step php4 k), conflicts (at_step php4 k), level (so_prop (at_step php4 k)))) [0; 1; 2; 3; 4; 5] =
  [(0, 0, 0, 0); (1, 1, 0, 1); (1, 2, 0, 2); (1, 3, 0, 3); (1, 4, 0, 4); (1, 4, 1, 3)] /\
  forall k, reach select_sort true php4 (at_step php4 k).
Proof. split; [vm_compute; reflexivity|]. intro k. apply reach_after, reach_built, php4_built. Qed.
(** A restart in the fifth step undoes four decisions and what they
    implied. *)
Example restart_effect_example :
  let se := sta_search (so_state (at_step php4 4)) in
  match restart true (so_ctx (at_step php4 4)) se with
  | Ret (_, se') => level (se_prop se) = 4 /\ assignments (se_prop se') = [] /\ length (assignments (se_prop se)) = 7
  | _ => False
  end.
Proof. vm_compute. repeat split; reflexivity. Qed.

Print Assumptions restart_effect.
Print Assumptions step_effect_exact.
