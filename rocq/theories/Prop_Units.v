(** C45: the unit clauses of the formula on the trail, and the exact number of fixed
    variables whatever clauses are added. *)
From Coq Require Import NArith List Bool Arith Lia Permutation ZifyN ZifyNat ZifyBool.
From Verif Require Import Model_Base Model_Lit Model_PartialAssignment Model_Header Model_Arena Model_Prop
  Model_Heap Model_Vsids Model_Analysis Model_Luby Model_Solver Spec Proof_Base Proof_PA Proof_Lit
  Proof_Long Proof_Trail Proof_Backtrack Proof_Inv Proof_Propagate Proof_Gc Proof_Analysis Proof_Learn Proof_DB Proof_Reduce Proof_Solver Proof_Search Proof_Solve Proof_Add
  Drivers_Solver Drivers_Search Proof_History Proof_Main Proof_Select Proof_Visited Examples_Solver Prop_Prop Prop_Analysis Prop_Search Prop_Step.
Import ListNotations.

(** ** Specification *)
(** How many unit clauses repeat an earlier one that is on the trail *)
Definition repeated_units (F : list (list N)) : nat := length (taken_units F) - length (nodup N.eq_dec (taken_units F)).

(** ** The beginning of the trail *)
Definition starts (F : list (list N)) (A : list (N * nat)) : Prop := exists rest, A = map (fun l => (l, 0)) (taken_units F) ++ rest.
Lemma starts_app F A B : starts F A -> starts F (A ++ B).
Proof. intros (r & ->). exists (r ++ B). rewrite app_assoc. reflexivity. Qed.
Lemma starts_upto F A k : starts F A -> starts F (upto k A).
Proof.
  intros (r & ->). exists (upto k r). unfold upto. rewrite filter_app. f_equal. induction (taken_units F) as [|x l IH]; [reflexivity|]. cbn [map filter snd Nat.leb]. rewrite IH. reflexivity.
Qed.
Lemma starts_effect F A d r p dd dc : starts F A -> step_effect A d r p dd dc -> starts F (assignments p).
Proof.
  intros H (ext & _ & [(_ & -> & _)|[(_ & (l & ->) & _)|[(_ & _ & -> & _)|(_ & (l & k & _ & -> & _) & _)]]]); auto using starts_app, starts_upto.
Qed.
Lemma filter_upto k p A : assignments p = A -> map (fun s => (s_lit s, s_level s)) (filter (fun s => s_level s <=? k) (t_steps (p_trail p))) = upto k A.
Proof.
  intros <-. unfold assignments, upto. induction (t_steps (p_trail p)) as [|s ss IH]; auto. cbn [filter map snd]. destruct (s_level s <=? k); cbn [map]; rewrite IH; reflexivity.
Qed.
Lemma add_assign dbg F s c s' : watchable s c -> solver_add_clause dbg s c = Ret s' ->
  assignments (so_prop s') = assignments (so_prop s) /\ taken_units (F ++ [c]) = taken_units F.
Proof.
  intros Hw E. apply add_steps in E. rewrite taken_snoc. destruct c as [|a [|b r]]; [|contradiction|]; cbn [take_unit]; (split; [unfold assignments, so_prop; rewrite E|]; reflexivity).
Qed.
Lemma propagate_assign select dbg F cx se cx' p' r : anysel select -> visited select dbg F cx se -> propagate dbg cx (se_prop se) = Ret (cx', p', r) ->
  exists ext, assignments p' = assignments (se_prop se) ++ ext.
Proof.
  intros Hs HV E. destruct (visited_SI _ _ _ _ _ Hs HV) as (K & L & st & es & HK & H).
  destruct (SI_propagate dbg _ _ _ _ _ _ _ _ H) as (cx1' & p1' & es1 & r' & E' & H1 & ((ext & Ex & Hx) & _) & _). rewrite E in E'. injection E' as <- <- <-.
  exists (map (fun s => (s_lit s, s_level s)) ext). unfold assignments. rewrite Ex, map_app. reflexivity.
Qed.
Lemma enable_trail dbg p b p' : enable_watch_lists dbg p b = Ret p' -> p_trail p' = p_trail p.
Proof.
  unfold enable_watch_lists, rebuild_watch_lists. intro E. destruct (Bool.eqb _ _); [inversion E; reflexivity|]. destruct b.
  - repeat match type of E with (bind ?x _ = _) => destruct x; cbn [bind] in E; try discriminate end. inversion E; reflexivity.
  - destruct (watches_clear _ _); cbn [bind] in E; try discriminate. inversion E; reflexivity.
Qed.
Lemma reach_starts select dbg F s : anysel select -> reach select dbg F s -> starts F (assignments (so_prop s)).
Proof.
  intro Hs. induction 1 as [F s H|F s r cx st HR IH E|F s HR IH|F s c s' HR IH Hc Hw E].
  - exists []. rewrite app_nil_r. apply (built_taken _ _ _ H).
  - pose proof (step_effect_exact select dbg F s r cx st Hs HR E) as X. cbv zeta in X. destruct X as [_ X].
    assert (T : starts F (if restarts s <? restarts (mkSolver cx st) then upto 0 (assignments (so_prop s)) else assignments (so_prop s))) by (destruct (_ <? _); auto using starts_upto).
    destruct (p_unsat (so_prop s)); [destruct X as (_ & -> & _); exact T|]. destruct X as (dd & dc & _ & _ & X). eapply starts_effect; eauto.
  - exact IH.
  - destruct (add_assign dbg F s c s' Hw E) as [-> Q]. unfold starts. rewrite Q. exact IH.
Qed.
Lemma visited_starts select dbg F cx se : anysel select -> visited select dbg F cx se -> starts F (assignments (se_prop se)).
Proof.
  intros Hs. induction 1 as [F s H|F cx se r cx' se' H IH E|F cx se cx' se' H IH E|F cx se cx' se' H IH E|F cx se p H IH E|F cx se k p cb H IH E
    |F cx se cx' p r H IH E|F cx se cx1 p1 c cx2 an p2 cb H IH E1 Hd E|F cx se cx1 p1 v vs l p2 H IH E1 E2 E3 E4
    |F cx se cx1 p1 c H IH Hu E1 Hd|F cx se cx1 p1 vs H IH E1 E2|F cx se p1 p2 H IH E1 E2|F cx se H IH|F s c s' H IH Hc Hw E].
  - apply (reach_starts _ _ _ _ Hs H).
  - destruct (p_unsat (se_prop se)) eqn:U; [unfold search_step in E; rewrite U in E; inversion E; subst; exact IH|].
    destruct (search_step_effect _ _ _ _ _ _ _ _ Hs H U E) as (dd & dc & _ & _ & _ & X). eapply starts_effect; eauto.
  - destruct (restart_effect _ _ _ _ _ Hs H) as (se1 & E1 & A & _). cbv zeta in A. rewrite E in E1. injection E1 as _ <-. rewrite A. apply starts_upto. exact IH.
  - destruct (visited_SI _ _ _ _ _ Hs H) as (K & L & st & es & HK & HI). destruct (SI_reduce select _ _ _ _ _ _ _ _ _ Hs HI) as (cx1 & se1 & L1 & es1 & lls & E1 & _ & _ & _ & T & _).
    rewrite E in E1. injection E1 as <- <-. unfold assignments. rewrite T. exact IH.
  - destruct (visited_SI _ _ _ _ _ Hs H) as (K & L & st & es & HK & HI). destruct (SI_gc dbg _ _ _ _ _ _ _ _ HI) as [[E1 _]|(p1 & es1 & f & E1 & _ & T & _)]; rewrite E in E1; [discriminate|]. injection E1 as <-.
    cbn [with_prop se_prop]. unfold assignments. rewrite T, map_map. erewrite map_ext; [exact IH|]. intro s. cbv beta. rewrite gc_step_lit, gc_step_level. reflexivity.
  - pose proof (backtrack_exact select dbg F cx se k Hs H) as B. cbv zeta in B. destruct (k <? decision_level (p_trail (se_prop se))); [|rewrite E in B; discriminate].
    destruct B as (p' & cb' & E1 & T & _). rewrite E in E1. injection E1 as <- <-. cbn [se_prop]. rewrite (assignments_upto _ _ _ T). apply starts_upto. exact IH.
  - destruct (propagate_assign _ _ _ _ _ _ _ _ Hs H E) as (ext & A). cbn [with_prop se_prop]. rewrite A. apply starts_app. exact IH.
  - destruct (learned_asserting _ _ _ _ _ _ _ _ _ _ _ _ Hs H E1 Hd E) as (a & rest & k & r & _ & _ & _ & _ & _ & _ & T & _).
    destruct (propagate_assign _ _ _ _ _ _ _ _ Hs H E1) as (ext & A). cbn [se_prop]. unfold assignments. rewrite T, map_app, (filter_upto k p1 _ A). apply starts_app, starts_upto, starts_app. exact IH.
  - destruct (propagate_assign _ _ _ _ _ _ _ _ Hs H E1) as (ext & A). cbn [se_prop]. unfold assign_decision in E4. apply assign_steps in E4. unfold assignments. rewrite E4, map_app.
    apply starts_app. cbn [p_set_trail p_trail t_steps]. fold (assignments p1). rewrite A. apply starts_app. exact IH.
  - destruct (propagate_assign _ _ _ _ _ _ _ _ Hs H E1) as (ext & A). cbn [with_prop se_prop p_set_unsat]. change (assignments (p_set_unsat p1 true)) with (assignments p1). rewrite A. apply starts_app. exact IH.
  - destruct (propagate_assign _ _ _ _ _ _ _ _ Hs H E1) as (ext & A). cbn [se_prop]. rewrite A. apply starts_app. exact IH.
  - apply enable_trail in E1. apply enable_trail in E2. cbn [with_prop se_prop]. unfold assignments. rewrite E2, E1. exact IH.
  - exact IH.
  - destruct (add_assign dbg F s c s' Hw E) as [A Q]. unfold so_prop in A. rewrite A. unfold starts. rewrite Q. exact IH.
Qed.

(** ** C45 *)
(** In any state, the trail begins with the literals of the unit clauses of the formula
    as they were added (at level 0), without those that contradict an earlier one.  All
    other literals on the trail differ from them and from each other. *)
Theorem units_first select dbg F cx se :
  select_ok (fun _ _ => True) select -> visited select dbg F cx se ->
  exists rest, assignments (se_prop se) = map (fun l => (l, 0)) (taken_units F) ++ rest /\
    NoDup (map fst rest) /\ (forall l, In l (map fst rest) -> ~ In l (taken_units F)).
Proof.
  intros Hs HV. destruct (visited_starts _ _ _ _ _ Hs HV) as (rest & A). exists rest. split; [exact A|].
  destruct (visited_SI _ _ _ _ _ Hs HV) as (K & L & st & es & [_ HK] & H). pose proof (s_dup _ _ _ _ _ _ _ _ H) as D.
  set (T := taken_units F) in *.
  assert (Sl : slits (se_ss se) = T ++ map fst rest).
  { apply (f_equal (map fst)) in A. unfold assignments in A. rewrite map_app, !map_map in A. cbn [fst] in A. rewrite map_id in A. exact A. }
  assert (D' : forall i j x, i < j -> nth_error (T ++ map fst rest) i = Some x -> nth_error (T ++ map fst rest) j = Some x -> j < length T).
  { intros i j x Hij Hi Hj. rewrite <- Sl in Hi, Hj. rewrite nth_error_map in Hi, Hj. destruct (nth_error (se_ss se) i) as [si|] eqn:Ei; [|discriminate]. destruct (nth_error (se_ss se) j) as [sj|] eqn:Ej; [|discriminate].
    cbn [option_map] in *. assert (j < K); [|lia]. eapply (D i j); eauto. congruence. }
  split.
  - apply NoDup_nth_error. intros i j Hi E. destruct (nth_error (map fst rest) i) as [x|] eqn:Ei; [|apply nth_error_None in Ei; lia].
    destruct (Nat.lt_trichotomy i j) as [G|[G|G]]; [|exact G|]; exfalso.
    + assert (length T + j < length T); [|lia]. eapply (D' (length T + i)); [lia|rewrite nth_error_app2 by lia; replace (length T + i - length T) with i by lia; eauto|rewrite nth_error_app2 by lia; replace (length T + j - length T) with j by lia; congruence].
    + assert (length T + i < length T); [|lia]. eapply (D' (length T + j)); [lia|rewrite nth_error_app2 by lia; replace (length T + j - length T) with j by lia; symmetry; exact E|rewrite nth_error_app2 by lia; replace (length T + i - length T) with i by lia; congruence].
  - intros l Hl Ht. apply In_nth_error in Hl as [j Hj]. apply In_nth_error in Ht as [i Hi]. assert (Li : i < length T) by (apply nth_error_Some; congruence).
    assert (length T + j < length T); [|lia]. eapply (D' i); [lia|rewrite nth_error_app1 by lia; eauto|rewrite nth_error_app2 by lia; replace (length T + j - length T) with j by lia; exact Hj].
Qed.
(** So stats.prop.fixed_vars, after a successful propagation at level 0, is the number
    of distinct variables assigned plus the number of unit clauses that were repeated. *)
Theorem fixed_vars_exact select dbg F cx se cx' p' :
  select_ok (fun _ _ => True) select -> visited select dbg F cx se ->
  propagate dbg cx (se_prop se) = Ret (cx', p', None) -> decision_level (p_trail p') = 0 ->
  exists V, lists nat V (trail_var p') /\ st_fixed_vars (cx_stats cx') = length V + repeated_units F.
Proof.
  intros Hs HV E Hd. destruct (units_first _ _ _ _ _ Hs (vis_propagate _ _ _ _ _ _ _ _ HV E)) as (rest & A & ND & DJ). cbn [with_prop se_prop] in A.
  destruct (visited_SI _ _ _ _ _ Hs HV) as (K & L & st & es & HK & H).
  destruct (SI_propagate dbg _ _ _ _ _ _ _ _ H) as (cx1 & p1 & es1 & r & E1 & H1 & X & Q & R). rewrite E in E1. inversion E1; subst cx1 p1 r.
  destruct R as [_ ->]. set (T := taken_units F) in *.
  assert (Sl : slits (t_steps (p_trail p')) = T ++ map fst rest).
  { apply (f_equal (map fst)) in A. unfold assignments in A. rewrite map_app, !map_map in A. cbn [fst] in A. rewrite map_id in A. exact A. }
  set (U := nodup N.eq_dec T ++ map fst rest).
  assert (NU : NoDup U). { apply NoDup_app_iff. split; [apply NoDup_nodup|]. split; [exact ND|]. intros x Hx Hr. apply nodup_In in Hx. apply (DJ x Hr Hx). }
  assert (IU : forall x, In x U <-> In x (slits (t_steps (p_trail p')))). { intro x. unfold U. rewrite Sl, !in_app_iff, nodup_In. tauto. }
  exists (map vidx U). split; [split|].
  - eapply vidx_cons_nodup; [apply (pi_vr _ _ _ _ (s_pi _ _ _ _ _ _ _ _ H1))|exact NU|]. intros x Hx. apply IU. exact Hx.
  - intro v. unfold trail_var, trail_lits. rewrite in_map_iff. split; intros (l & B & C); exists l; rewrite vidx_half in *; [apply IU in C|apply IU in B]; auto.
  - unfold prop_stats, cx_with; cbn [cx_stats st_fixed_vars]. rewrite Hd, Nat.eqb_refl. unfold fixed_var_count.
    assert (HP := s_pi _ _ _ _ _ _ _ _ H1). cbn [se_prop] in HP. rewrite (tr_dl (cnf_vars F)) in Hd by apply HP. rewrite (tr_hd _ _ (pi_tr _ _ _ _ HP)).
    destruct (tl (t_decisions (p_trail p'))); [|discriminate]. cbn [nth_error]. rewrite map_length. unfold U. rewrite app_length.
    apply (f_equal (@length N)) in Sl. rewrite map_length, app_length in Sl. rewrite Sl. unfold repeated_units. fold T.
    assert (length (nodup N.eq_dec T) <= length T); [|lia]. apply NoDup_incl_length; [apply NoDup_nodup|]. intros x Hx. apply nodup_In in Hx. exact Hx.
Qed.
(** In debug builds nothing is repeated. *)
Theorem debug_no_repeats F s : built true F s -> repeated_units F = 0.
Proof.
  intro H. pose proof (built_taken _ _ _ H) as A. apply PSI_built in H. destruct H as [(es & H) _ _ _ _ _ _]. cbn [Kof] in H. pose proof (s_dup _ _ _ _ _ _ _ _ H) as D. apply dupK_0 in D.
  apply (f_equal (map fst)) in A. rewrite !map_map in A. cbn [fst] in A. rewrite map_id in A. change (slits (se_ss (so_se s)) = taken_units F) in A. rewrite A in D. unfold repeated_units. rewrite (nodup_fixed_point N.eq_dec D). lia.
Qed.

(** ** Examples *)
Example repeated_example : taken_units [[3]; [1]; [4; 6]; [1]; [0]; [1]; []; [3]]%N = [3; 1; 1; 1; 3]%N /\ repeated_units [[3]; [1]; [4; 6]; [1]; [0]; [1]; []; [3]]%N = 3.
Proof. split; reflexivity. Qed.
(** Four unit clauses, two of them repeated, and an implied literal. *)
Example fixed_vars_exact_example : let F := [[1]; [3]; [1]; [0; 2; 5]; [3]; [6; 8]]%N in let s := added false F in
  visited select_sort false F (so_ctx s) (sta_search (so_state s)) /\ repeated_units F = 2 /\
  exists cx' p', propagate false (so_ctx s) (se_prop (sta_search (so_state s))) = Ret (cx', p', None) /\
    decision_level (p_trail p') = 0 /\ st_fixed_vars (cx_stats cx') = 5 /\ trail_lits p' = [1; 3; 1; 3; 5]%N.
Proof.
  cbv zeta. split; [apply vis_solver; constructor; apply built_added; reflexivity|]. split; [reflexivity|].
  eexists _, _. split; [vm_compute; reflexivity|]. repeat split.
Qed.

Print Assumptions units_first.
Print Assumptions fixed_vars_exact.
Print Assumptions debug_no_repeats.
