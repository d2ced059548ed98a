(** Histories of a search: counters and saved phases. *)
From Coq Require Import NArith List Bool Arith Lia Permutation Sorted ZifyN ZifyNat ZifyBool.
From Verif Require Import Model_Base Model_Lit Model_PartialAssignment Model_Header Model_Arena Model_Prop
  Model_Heap Model_Vsids Model_Analysis Model_Luby Model_Solver Spec Drivers_Arena Proof_Base Proof_PA Proof_Lit Proof_Header Proof_Arena
  Proof_ArenaHist Proof_Long Proof_Trail Proof_Heap Proof_Backtrack Proof_Inv Proof_Propagate Proof_PropOps Proof_Gc Proof_Glue
  Proof_Analysis Proof_Minimize Proof_Learn Proof_DB Proof_Reduce Proof_Size Proof_Solver Proof_Search Proof_Luby Proof_Solve Proof_Add
  Drivers_Solver Proof_Main Drivers_Search Proof_Visited.
Import ListNotations.

Lemma searched_visited select dbg F evs cx se : searched select dbg F evs cx se -> visited select dbg F cx se.
Proof.
  induction 1.
  - apply vis_solver. constructor. auto.
  - apply vis_close; auto.
  - apply vis_collect; auto.
  - eapply vis_reduce; eauto.
  - eapply vis_restart; eauto.
  - eapply vis_conflict; eauto.
  - eapply vis_decide; eauto.
  - eapply vis_top; eauto.
  - eapply vis_model; eauto.
  - eapply vis_add; eauto.
Qed.

(** ** The model's own runs have histories *)
Lemma searched_step select dbg F evs cx se r cx' se' : searched select dbg F evs cx se ->
  search_step dbg cx se = Ret (r, cx', se') -> exists evs', searched select dbg F (evs ++ evs') cx' se'.
Proof.
  intros H E. unfold search_step in E. destruct (p_unsat (se_prop se)) eqn:Eu.
  { inversion E; subst. exists []. rewrite app_nil_r. auto. }
  destruct (prop_collect_garbage dbg (se_prop se)) as [p0| |] eqn:E0; try discriminate. cbn [bind] in E.
  pose proof (sea_collect _ _ _ _ _ _ _ H E0) as H0.
  assert (Eu0 : p_unsat p0 = false).
  { unfold prop_collect_garbage in E0. destruct (should_collect_garbage _); [|congruence]. unfold collect_garbage_now in E0.
    destruct (_ <=? _)%N; [|discriminate]. destruct (long_collect _) as [[lg gaps]| |]; try discriminate. cbn [bind] in E0.
    destruct (trail_update_refs _ _); try discriminate. cbn [bind] in E0. destruct (watches_update_refs _ _ _); try discriminate. cbn [bind] in E0.
    inversion E0; subst; auto. }
  destruct (propagate dbg cx p0) as [[[cx1 p1] r1]| |] eqn:E1; try discriminate. cbn [bind] in E.
  destruct r1 as [c|].
  - destruct (Nat.eqb_spec (decision_level (p_trail p1)) 0) as [Z|Z].
    + inversion E; subst. eexists. eapply (sea_top _ _ _ _ _ (with_prop se p0)); eauto.
    + destruct (analyze_conflict _ _ _ _ _ _) as [[[[cx3 an] p2] cb]| |] eqn:E2; try discriminate. cbn [bind] in E. inversion E; subst.
      eexists. eapply (sea_conflict _ _ _ _ _ (with_prop se p0)); eauto.
  - destruct (pop_decision_var _ _) as [[ov vs]| |] eqn:E2; try discriminate. cbn [bind] in E. destruct ov as [v|].
    + destruct (decide_phase _ _) as [l| |] eqn:E3; try discriminate. cbn [bind] in E.
      destruct (assign_decision _ _ _) as [p2| |] eqn:E4; try discriminate. cbn [bind] in E. inversion E; subst.
      eexists. eapply (sea_decide _ _ _ _ _ (with_prop se p0)); eauto.
    + inversion E; subst. eexists. eapply (sea_model _ _ _ _ _ (with_prop se p0)); eauto.
Qed.

Lemma searched_sched select dbg F evs s r cx st : searched select dbg F evs (so_ctx s) (sta_search (so_state s)) ->
  schedule_search_step select dbg (so_ctx s) (so_state s) = Ret (r, cx, st) -> exists evs', searched select dbg F (evs ++ evs') cx (sta_search st).
Proof.
  intros H E. unfold schedule_search_step in E. destruct (should_restart _ _) as [b sc1].
  set (cx0 := so_ctx s) in *. set (se0 := sta_search (so_state s)) in *.
  assert (A : forall cx1 se1, (if b then restart dbg cx0 se0 else Ret (cx0, se0)) = Ret (cx1, se1) -> exists e, searched select dbg F (evs ++ e) cx1 se1).
  { intros cx1 se1 E1. destruct b; [eexists; eapply sea_restart; eauto|]. inversion E1; subst. exists []. rewrite app_nil_r; auto. }
  destruct (if b then _ else _) as [[cx1 se1]| |]; try discriminate. cbn [bind] in E. destruct (A _ _ eq_refl) as (e1 & H1). clear A.
  destruct (should_reduce _ _) as [b2 sc2].
  assert (A : forall cx2 se2, (if b2 then (let* (cx2, se2) := reduce select cx1 se1 in let* _ := report dbg cx2 in Ret (cx2, se2)) else Ret (cx1, se1)) = Ret (cx2, se2) ->
    exists e, searched select dbg F ((evs ++ e1) ++ e) cx2 se2).
  { intros cx2 se2 E2. destruct b2; [|inversion E2; subst; exists []; rewrite app_nil_r; auto].
    destruct (reduce select cx1 se1) as [[cx3 se3]| |] eqn:E3; try discriminate. cbn [bind] in E2. destruct (report dbg cx3); try discriminate. cbn [bind] in E2.
    inversion E2; subst. eexists. eapply sea_reduce; eauto. }
  destruct (if b2 then _ else _) as [[cx2 se2]| |]; try discriminate. cbn [bind] in E. destruct (A _ _ eq_refl) as (e2 & H2). clear A.
  destruct (search_step dbg cx2 se2) as [[[r3 cx3] se3]| |] eqn:E3; try discriminate. cbn [bind] in E. inversion E; subst. cbn [sta_search].
  destruct (searched_step _ _ _ _ _ _ _ _ _ H2 E3) as (e3 & H3). exists (e1 ++ e2 ++ e3). rewrite <- !app_assoc in H3. auto.
Qed.

Lemma searched_reach select dbg F s : reach select dbg F s -> exists evs, searched select dbg F evs (so_ctx s) (sta_search (so_state s)).
Proof.
  induction 1 as [F s H|F s r cx st H (evs & IH) E|F s H (evs & IH)|F s c s' H (evs & IH) Hc Hw E].
  - exists []. constructor. auto.
  - destruct (searched_sched _ _ _ _ _ _ _ _ IH E) as (e & H1). eauto.
  - exists evs. apply sea_close. auto.
  - exists evs. eapply sea_add; eauto.
Qed.

(** ** Counters *)
Lemma count_app f a b : count_events f (a ++ b) = count_events f a + count_events f b.
Proof. unfold count_events. rewrite filter_app, app_length. auto. Qed.
Lemma sum_app w a b : sum_propagated w (a ++ b) = sum_propagated w a + sum_propagated w b.
Proof. unfold sum_propagated. rewrite map_app, list_sum_app. auto. Qed.

Lemma st_add_counters s h c : counters (st_add s h c) = counters s.
Proof. unfold st_add. destruct c as [|a [|b [|d r]]]; try reflexivity. destruct (lh_redundant h); reflexivity. Qed.

Lemma searched_counters select dbg F evs cx se : anysel select -> searched select dbg F evs cx se ->
  counters (cx_stats cx) = (sum_propagated false evs, count_events is_decide evs, count_events is_conflict evs,
     count_events is_restart evs, count_events is_reduce evs).
Proof.
  intros Hs H. induction H as [F s H|F evs cx se H IH|F evs cx se p H IH E|F evs cx se cx' se' H IH E|F evs cx se cx' se' H IH E
    |F evs cx se cx1 p1 c cx2 an p2 cb H IH Hu E1 Hd E|F evs cx se cx1 p1 v vs l p2 H IH E1 E2 E3 E4|F evs cx se cx1 p1 c H IH Hu E1 Hd|F evs cx se cx1 p1 vs H IH E1 E2|F evs s c s' H IH Hc Hw E]; auto.
  - apply (proj1 (built_counters _ _ _ H)).
  - destruct (visited_SI _ _ _ _ _ Hs (searched_visited _ _ _ _ _ _ H)) as (K & L & st & es & HK & HI).
    destruct (SI_reduce select _ _ _ _ _ _ _ _ _ Hs HI) as (cx1 & se1 & L1 & es1 & lls & E1 & H1 & Ecx & _). rewrite E in E1. inversion E1; subst cx' se'.
    rewrite sum_app, !count_app. rewrite Ecx. unfold counters in *. cbn [del_ctx del_stats bump_reductions cx_with cx_stats st_propagations st_decisions st_conflicts st_restarts st_reductions].
    inversion IH. cbn [sum_propagated map list_sum fold_right count_events filter is_decide is_conflict is_restart is_reduce length]. rewrite ?Nat.add_0_l, ?Nat.add_0_r; reflexivity.
  - destruct (visited_SI _ _ _ _ _ Hs (searched_visited _ _ _ _ _ _ H)) as (K & L & st & es & HK & HI).
    destruct (SI_restart dbg _ _ _ _ _ _ _ _ HI) as (cx1 & se1 & E1 & H1 & Ecx & _). rewrite E in E1. inversion E1; subst cx' se'.
    rewrite sum_app, !count_app. rewrite Ecx. unfold counters in *. cbn [bump_restarts cx_with cx_stats st_propagations st_decisions st_conflicts st_restarts st_reductions].
    inversion IH. cbn [sum_propagated map list_sum fold_right count_events filter is_decide is_conflict is_restart is_reduce length]. rewrite ?Nat.add_0_l, ?Nat.add_0_r; reflexivity.
  - destruct (visited_SI _ _ _ _ _ Hs (searched_visited _ _ _ _ _ _ H)) as (K & L & st & es & HK & HI).
    destruct (SI_propagate dbg _ _ _ _ _ _ _ _ HI) as (cx3 & p3 & es3 & r3 & E3 & H3 & _ & _ & HR).
    rewrite E1 in E3. inversion E3; subst cx3 p3 r3. destruct HR as [HC Ecx]. subst cx1.
    assert (H2 : SI K (cnf_vars F) F L st es3 (bump_conflicts cx) (mkSearch p1 (se_analysis se) (se_vsids se) (se_phases se))).
    { eapply SI_ctx; [exact H3|..]; try reflexivity. apply H3. }
    destruct (SI_analyze dbg _ _ _ _ _ _ _ _ c H2 HC) as [[E4 _]|R]; [cbn [se_prop]; lia|cbn [se_analysis se_prop se_vsids se_phases] in E4; unfold search_cb in E; rewrite E in E4; discriminate|].
    destruct R as (cx5 & an5 & p5 & cb5 & es5 & cl & level & target & r5 & a & E5 & H5 & _ & _ & _ & _ & (h & Ecx) & _).
    cbn [se_analysis se_prop se_vsids se_phases] in E5; unfold search_cb in E; rewrite E in E5. inversion E5; subst cx2 an p2 cb.
    rewrite sum_app, !count_app. rewrite Ecx. cbn [cx_stats]. rewrite st_add_counters. unfold counters in *.
    cbn [bump_conflicts cx_with cx_stats st_propagations st_decisions st_conflicts st_restarts st_reductions].
    inversion IH. cbn [sum_propagated map list_sum fold_right count_events filter is_decide is_conflict is_restart is_reduce length andb negb]. rewrite ?Nat.add_0_l, ?Nat.add_0_r; reflexivity.
  - destruct (visited_SI _ _ _ _ _ Hs (searched_visited _ _ _ _ _ _ H)) as (K & L & st & es & HK & HI).
    destruct (SI_propagate dbg _ _ _ _ _ _ _ _ HI) as (cx3 & p3 & es3 & r3 & E5 & H3 & _ & _ & HR).
    rewrite E1 in E5. inversion E5; subst cx3 p3 r3. destruct HR as [HC Ecx]. rewrite Ecx.
    rewrite sum_app, !count_app. unfold counters in *.
    cbn [bump_decisions prop_stats cx_with cx_stats st_propagations st_decisions st_conflicts st_restarts st_reductions].
    inversion IH. cbn [sum_propagated map list_sum fold_right count_events filter is_decide is_conflict is_restart is_reduce length andb negb]. unfold propagated. rewrite ?Nat.add_0_l, ?Nat.add_0_r; reflexivity.
  - destruct (visited_SI _ _ _ _ _ Hs (searched_visited _ _ _ _ _ _ H)) as (K & L & st & es & HK & HI).
    destruct (SI_propagate dbg _ _ _ _ _ _ _ _ HI) as (cx3 & p3 & es3 & r3 & E5 & H3 & _ & _ & HR).
    rewrite E1 in E5. inversion E5; subst cx3 p3 r3. destruct HR as [HC Ecx]. rewrite Ecx.
    rewrite sum_app, !count_app. unfold counters in *.
    cbn [bump_conflicts cx_with cx_stats st_propagations st_decisions st_conflicts st_restarts st_reductions].
    inversion IH. cbn [sum_propagated map list_sum fold_right count_events filter is_decide is_conflict is_restart is_reduce length andb negb]. rewrite ?Nat.add_0_l, ?Nat.add_0_r; reflexivity.
  - destruct (visited_SI _ _ _ _ _ Hs (searched_visited _ _ _ _ _ _ H)) as (K & L & st & es & HK & HI).
    destruct (SI_propagate dbg _ _ _ _ _ _ _ _ HI) as (cx3 & p3 & es3 & r3 & E5 & H3 & _ & _ & HR).
    rewrite E1 in E5. inversion E5; subst cx3 p3 r3. destruct HR as [HC Ecx]. rewrite Ecx.
    rewrite sum_app, !count_app. unfold counters in *.
    cbn [prop_stats cx_with cx_stats st_propagations st_decisions st_conflicts st_restarts st_reductions].
    inversion IH. cbn [sum_propagated map list_sum fold_right count_events filter is_decide is_conflict is_restart is_reduce length andb negb]. unfold propagated. rewrite ?Nat.add_0_l, ?Nat.add_0_r; reflexivity.
  - rewrite (proj1 (add_counters _ _ _ _ E)). exact IH.
Qed.

(** ** Saved phases *)
Lemma vidx_half l : vidx l = N.to_nat (l / 2).
Proof. unfold vidx. rewrite N.shiftr_div_pow2. reflexivity. Qed.
Lemma all_undone_app a b : all_undone (a ++ b) = all_undone a ++ all_undone b.
Proof. apply flat_map_app. Qed.

Lemma save_phases_length ls : forall ph, length (save_phases ph ls) = length ph.
Proof. induction ls as [|l ls IH]; intro ph; [reflexivity|]. unfold save_phases in *. cbn [fold_left]. rewrite IH, upd_length. auto. Qed.

Lemma find_app {A} (f : A -> bool) a b : find f (a ++ b) = match find f a with Some x => Some x | None => find f b end.
Proof. induction a as [|x a IH]; [reflexivity|]. cbn [app find]. destruct (f x); auto. Qed.

Definition saved (v : nat) (ls : list N) : option N := find (fun l => N.to_nat (l / 2) =? v) (rev ls).
Lemma saved_app v a b : saved v (a ++ b) = match saved v b with Some x => Some x | None => saved v a end.
Proof. unfold saved. rewrite rev_app_distr. apply find_app. Qed.
Lemma saved_undef v ls : saved v ls = None <-> forall l, In l ls -> vidx l <> v.
Proof.
  unfold saved. split.
  - intros E l Hl. pose proof (find_none _ _ E l) as G. rewrite <- in_rev in G. specialize (G Hl). cbv beta in G. rewrite vidx_half. apply Nat.eqb_neq. auto.
  - intro G. destruct (find _ _) as [l|] eqn:E; auto. apply find_some in E as [H1 H2]. rewrite <- in_rev in H1. apply Nat.eqb_eq in H2.
    exfalso. apply (G l H1). rewrite vidx_half. auto.
Qed.
Lemma saved_some v ls l : saved v ls = Some l -> vidx l = v.
Proof. intro E. apply find_some in E as [_ E]. apply Nat.eqb_eq in E. rewrite vidx_half. auto. Qed.

Lemma save_phases_nth v ls : forall ph, v < length ph ->
  nth v (save_phases ph ls) false = match saved v ls with Some l => N.odd l | None => nth v ph false end.
Proof.
  induction ls as [|l ls IH]; intros ph Hv; [reflexivity|]. unfold save_phases in *. cbn [fold_left]. rewrite IH by (rewrite upd_length; auto).
  replace (saved v (l :: ls)) with (match saved v ls with Some x => Some x | None => saved v [l] end) by (rewrite <- saved_app; reflexivity).
  destruct (saved v ls); [reflexivity|]. unfold saved; cbn [rev app find].
  rewrite <- vidx_half. destruct (Nat.eqb_spec (vidx l) v) as [E|E].
  - subst v. apply nth_error_nth. apply upd_same. auto.
  - destruct (nth_error ph v) as [b|] eqn:En; [|apply nth_error_None in En; lia].
    rewrite (nth_error_nth _ _ _ En). apply nth_error_nth. rewrite upd_other; auto.
Qed.

Definition phases_ok (F : list (list N)) (evs : list event) (se : search) : Prop :=
  length (se_phases se) = cnf_vars F /\
  (forall v, v < cnf_vars F -> nth v (se_phases se) false = match saved v (all_undone evs) with Some l => N.odd l | None => false end) /\
  forall l, In l (all_undone evs) -> vidx l < cnf_vars F.

Lemma phases_ok_undo F evs se se' ls : phases_ok F evs se -> se_phases se' = save_phases (se_phases se) ls ->
  (forall l, In l ls -> vidx l < cnf_vars F) -> forall pre, all_undone pre = ls -> phases_ok F (evs ++ pre) se'.
Proof.
  intros (HL & HN & HR) E Hls pre Ep. split; [rewrite E, save_phases_length; auto|]. split.
  - intros v Hv. rewrite E, save_phases_nth by lia. rewrite all_undone_app, saved_app, Ep. destruct (saved v ls); auto.
  - intros l Hl. rewrite all_undone_app, Ep in Hl. apply in_app_or in Hl as [Hl|Hl]; auto.
Qed.
Lemma phases_ok_same F evs se se' pre : phases_ok F evs se -> se_phases se' = se_phases se -> all_undone pre = [] -> phases_ok F (evs ++ pre) se'.
Proof. intros H E Ep. eapply phases_ok_undo; [exact H| | |exact Ep]; [exact E|intros l []]. Qed.

(** Before solving, every phase is negative. *)
Lemma resize_false p n : (forall b, In b p -> b = false) -> forall b, In b (phases_resize p n) -> b = false.
Proof.
  intros H b Hb. unfold phases_resize, vresize in Hb. apply in_app_or in Hb as [Hb|Hb].
  - apply H. clear -Hb. revert n Hb. induction p as [|x p IH]; intros [|n] Hb; cbn in *; try tauto. destruct Hb; auto. right. eauto.
  - apply repeat_spec in Hb. auto.
Qed.
Lemma built_phases dbg F s : built dbg F s -> forall b, In b (se_phases (sta_search (so_state s))) -> b = false.
Proof.
  induction 1 as [|F s c s' _ IH Hv E|F s _ IH|F s _ IH]; auto; [intros b []|].
  unfold solver_add_clause in E. set (X := if Nat.ltb _ _ then _ else _) in E.
  assert (A : forall cx1 se1, X = Ret (cx1, se1) -> forall b, In b (se_phases se1) -> b = false).
  { unfold X. intros cx1 se1 E1. destruct (Nat.ltb _ _); [|inversion E1; subst; auto]. unfold search_resize in E1. destruct (vsids_resize _ _); try discriminate.
    cbn [bind] in E1. inversion E1; subst. cbn [se_phases]. apply resize_false. auto. }
  destruct X as [[cx1 se1]| |]; try discriminate. cbn [bind] in E. specialize (A _ _ eq_refl).
  destruct (add_clause_verbatim _ _ _ _ _) as [[[o cx2] p2]| |]; try discriminate. cbn [bind] in E. inversion E; subst. auto.
Qed.

Lemma undone_skipn n p p' level target : TR n (p_trail p) -> nth_error (tl (t_decisions (p_trail p))) level = Some target ->
  decision_level (p_trail p') = level -> undone p p' = slits (skipn target (t_steps (p_trail p))).
Proof. intros HT Et E. unfold undone. rewrite E. destruct (filter_levels _ _ _ _ HT Et) as [_ ->]. reflexivity. Qed.
Lemma undone_none n p p' : TR n (p_trail p) -> decision_level (p_trail p) <= decision_level (p_trail p') -> undone p p' = [].
Proof.
  intros HT E. unfold undone. rewrite filter_none; auto. intros s Hs. apply In_nth_error in Hs as [i Hs].
  pose proof (tr_lev_le n _ HT i s Hs). apply Nat.ltb_ge. lia.
Qed.

Lemma trail_skip_range n es p k : PI n es p -> forall l, In l (slits (skipn k (t_steps (p_trail p)))) -> vidx l < n.
Proof.
  intros H l Hl. eapply VR_range; [apply (pi_vr _ _ _ _ H)|]. apply in_map_iff in Hl as (x & <- & Hx). apply in_map.
  rewrite <- (firstn_skipn k). apply in_or_app. auto.
Qed.
Lemma searched_phases select dbg F evs cx se : anysel select -> searched select dbg F evs cx se -> phases_ok F evs se.
Proof.
  intros Hs H. induction H as [F s H|F evs cx se H IH|F evs cx se p H IH E|F evs cx se cx' se' H IH E|F evs cx se cx' se' H IH E
    |F evs cx se cx1 p1 c cx2 an p2 cb H IH Hu E1 Hd E|F evs cx se cx1 p1 v vs l p2 H IH E1 E2 E3 E4|F evs cx se cx1 p1 c H IH Hu E1 Hd|F evs cx se cx1 p1 vs H IH E1 E2|F evs s c s' H IH Hc Hw E]; auto.
  - split; [|split; [|intros l []]].
    + destruct (visited_SI select dbg F (so_ctx s) (sta_search (so_state s)) Hs) as (K & L & st & es & HK & HI); [apply vis_solver; constructor; auto|].
      apply (cb_ph _ _ (s_cb _ _ _ _ _ _ _ _ HI)).
    + intros v Hv. cbn. destruct (nth_in_or_default v (se_phases (sta_search (so_state s))) false) as [G|G]; auto. apply (built_phases _ _ _ H _ G).
  - destruct (visited_SI _ _ _ _ _ Hs (searched_visited _ _ _ _ _ _ H)) as (K & L & st & es & HK & HI).
    destruct (SI_reduce select _ _ _ _ _ _ _ _ _ Hs HI) as (cx1 & se1 & L1 & es1 & lls & E1 & H1 & _ & _ & _ & Eph & _). rewrite E in E1. inversion E1; subst cx' se'.
    eapply phases_ok_same; eauto.
  - destruct (visited_SI _ _ _ _ _ Hs (searched_visited _ _ _ _ _ _ H)) as (K & L & st & es & HK & HI).
    pose proof (pi_tr _ _ _ _ (s_pi _ _ _ _ _ _ _ _ HI)) as HT.
    unfold restart in E. destruct (Nat.ltb_spec 0 (decision_level (p_trail (se_prop se)))) as [G|G].
    + destruct (SI_back dbg _ _ _ _ _ _ _ _ _ HI G) as (t & ti & v' & cb' & Et & E1 & H1 & _ & Eph & _). rewrite E1 in E. cbn [bind] in E. inversion E; subst.
      eapply phases_ok_undo; [exact IH|exact Eph|apply trail_skip_range with (1 := s_pi _ _ _ _ _ _ _ _ HI)|]. cbn [all_undone flat_map app]. rewrite app_nil_r. apply (undone_skipn (cnf_vars F)) with 0; auto.
      cbn [se_prop]. unfold decision_level, p_set_vt, t_back; cbn [p_trail t_decisions]. rewrite (tr_hd _ _ HT). reflexivity.
    + inversion E; subst. eapply phases_ok_same; [exact IH|reflexivity|]. cbn [all_undone flat_map app]. rewrite app_nil_r. apply (undone_none (cnf_vars F)); auto.
  - destruct (visited_SI _ _ _ _ _ Hs (searched_visited _ _ _ _ _ _ H)) as (K & L & st & es & HK & HI).
    destruct (SI_propagate dbg _ _ _ _ _ _ _ _ HI) as (cx3 & p3 & es3 & r3 & E3 & H3 & _ & _ & HR).
    rewrite E1 in E3. inversion E3; subst cx3 p3 r3. destruct HR as [HC Ecx]. subst cx1.
    pose proof (s_pi _ _ _ _ _ _ _ _ H3) as HP1. cbn [se_prop] in HP1. pose proof (pi_tr _ _ _ _ HP1) as HT.
    destruct (analyze_ok (cnf_vars F) es3 p1 dbg (bump_conflicts cx) (se_analysis se) c (se_cb se)) as (cl0 & Ecl & [[E4 _]|R]); auto; try (apply H3); try lia.
    { unfold search_cb in E. rewrite E in E4. discriminate. }
    destruct R as (cx' & an' & p' & cb' & es1 & es' & h & a & rest & r & level & target & E4 & Z). unfold search_cb in E. rewrite E in E4. inversion E4; subst cx2 an p2 cb.
    eapply phases_ok_undo; [exact IH|apply Z|apply trail_skip_range with (1 := HP1)|]. cbn [all_undone flat_map app]. rewrite app_nil_r. apply (undone_skipn (cnf_vars F)) with level; auto; [apply Z|].
    unfold decision_level. rewrite (az_ds _ _ _ _ _ _ _ _ _ _ _ _ _ _ _ _ _ _ Z), firstn_length. pose proof (az_lt _ _ _ _ _ _ _ _ _ _ _ _ _ _ _ _ _ _ Z) as Lt. unfold decision_level in Lt. lia.
  - eapply phases_ok_same; eauto.
  - eapply phases_ok_same; eauto.
  - eapply phases_ok_same; eauto.
  - destruct (visited_SI _ _ _ _ _ Hs (searched_visited _ _ _ _ _ _ H)) as (K & L & st & es & HK & HI).
    pose proof (sti_vars _ _ _ _ _ (s_st _ _ _ _ _ _ _ _ HI)) as Ev. destruct IH as (HL & HN & HR).
    assert (A : se_phases (sta_search (so_state s')) = se_phases (sta_search (so_state s)) ++ repeat false (cnf_vars (F ++ [c]) - cnf_vars F)).
    { unfold solver_add_clause in E. rewrite Ev, cnf_vars_snoc in *. destruct (Nat.ltb_spec (cnf_vars F) (clause_var_count c)) as [G|G].
      - unfold search_resize in E. destruct (vsids_resize _ _); try discriminate. cbn [bind] in E.
        destruct (add_clause_verbatim _ _ _ _ _) as [[[o cx2] p2]| |]; try discriminate. cbn [bind] in E. inversion E; subst.
        cbn [so_state sta_search se_phases]. unfold phases_resize, vresize. rewrite HL, firstn_all2 by lia. f_equal. f_equal. lia.
      - cbn [bind] in E. destruct (add_clause_verbatim _ _ _ _ _) as [[[o cx2] p2]| |]; try discriminate. cbn [bind] in E. inversion E; subst.
        cbn [so_state sta_search se_phases]. replace (Nat.max _ _ - _) with 0 by lia. cbn [repeat]. rewrite app_nil_r. reflexivity. }
    assert (B : cnf_vars F <= cnf_vars (F ++ [c])) by (rewrite cnf_vars_snoc; lia).
    split; [rewrite A, app_length, repeat_length, HL; lia|]. split; [|intros l Hl; specialize (HR l Hl); lia].
    intros v Hv. rewrite A. destruct (Nat.ltb_spec v (cnf_vars F)) as [G|G].
    + rewrite app_nth1 by lia. auto.
    + rewrite app_nth2 by lia. replace (saved v (all_undone evs)) with (@None N).
      * destruct (nth_in_or_default (v - length (se_phases (sta_search (so_state s)))) (repeat false (cnf_vars (F ++ [c]) - cnf_vars F)) false) as [Q|Q]; auto.
        apply repeat_spec in Q. exact Q.
      * symmetry. apply saved_undef. intros l Hl Q. specialize (HR l Hl). lia.
Qed.
