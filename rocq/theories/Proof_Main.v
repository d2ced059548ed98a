(** Every reachable solver state satisfies the invariant; models. *)
From Coq Require Import ListDec NArith List Bool Arith Lia Permutation Sorted ZifyN ZifyNat ZifyBool.
From Verif Require Import Model_Base Model_Lit Model_PartialAssignment Model_Header Model_Arena Model_Prop
  Model_Heap Model_Vsids Model_Analysis Model_Luby Model_Solver Spec Drivers_Arena Proof_Base Proof_PA Proof_Lit Proof_Header Proof_Arena
  Proof_ArenaHist Proof_Long Proof_Trail Proof_Heap Proof_Backtrack Proof_Inv Proof_Propagate Proof_PropOps Proof_Gc Proof_Glue
  Proof_Analysis Proof_Minimize Proof_Learn Proof_DB Proof_Reduce Proof_Size Proof_Solver Proof_Search Proof_Luby Proof_Solve Proof_Add
  Drivers_Solver.
Import ListNotations.

Lemma SI_proof K n F L steps es cx se pr : SI K n F L steps es cx se -> (forall st, pr = Some st -> map pconv st = steps) ->
  SI K n F L steps es (mkCtx (cx_stats cx) pr) se.
Proof. intros H Hp. constructor; try apply H. exact Hp. Qed.

Lemma PSI_built dbg F s : built dbg F s -> PSI dbg (cnf_vars F) F s.
Proof.
  induction 1 as [|F s c s' _ IH Hv E|F s _ IH|F s _ IH].
  - apply PSI_new.
  - destruct (add_ok dbg _ F s c IH Hv) as [[E1 _]|[(_ & l & _ & _ & E1)|(s1 & E1 & H1 & _)]]; rewrite E in E1; try discriminate.
    inversion E1; subst s1. rewrite cnf_vars_snoc. exact H1.
  - destruct IH as [(es & H) A1 A2 A3 A4 A5 A6]. constructor; auto. exists es. apply SI_proof; [exact H|]. intros st E; inversion E; reflexivity.
  - destruct IH as [(es & H) A1 A2 A3 A4 A5 A6]. constructor; auto. exists es. apply SI_proof; [exact H|]. intros st E; inversion E; reflexivity.
Qed.

Lemma distinct_units_dec F : {distinct_units F} + {~ distinct_units F}.
Proof. apply ListDec.NoDup_dec. apply list_eq_dec. apply N.eq_dec. Qed.

(** The trail starts without duplicates. *)
Definition nodup_start (dbg : bool) (F : list (list N)) : Prop := dbg = true \/ distinct_units F.

Lemma assign_steps dbg p s p' : assign dbg p s = Ret p' -> t_steps (p_trail p') = t_steps (p_trail p) ++ [s].
Proof.
  unfold assign. destruct (assign_raw _ _ _ _) as [[v t]| |] eqn:E; try discriminate. cbn [bind]. intro H. inversion H; subst. cbn [p_set_vt p_trail].
  unfold assign_raw, dassert in E.
  repeat match type of E with bind ?x _ = _ => destruct x; try discriminate; cbn [bind] in E | (if ?x then _ else _) = _ => destruct x; try discriminate end.
  inversion E; subst. reflexivity.
Qed.

Lemma add_trail dbg s c s' : solver_add_clause dbg s c = Ret s' ->
  slits (se_ss (so_se s')) = slits (se_ss (so_se s)) \/ exists a, c = [a] /\ slits (se_ss (so_se s')) = slits (se_ss (so_se s)) ++ [a].
Proof.
  unfold solver_add_clause. set (X := if Nat.ltb _ _ then _ else _). intro E.
  assert (A : forall cx1 se1, X = Ret (cx1, se1) -> se_ss se1 = se_ss (so_se s)).
  { unfold X. intros cx1 se1 E1. destruct (Nat.ltb _ _); [|inversion E1; subst; auto]. unfold search_resize in E1. destruct (vsids_resize _ _); try discriminate. cbn [bind] in E1.
    inversion E1; subst. reflexivity. }
  destruct X as [[cx1 se1]| |]; try discriminate. cbn [bind] in E. specialize (A _ _ eq_refl).
  destruct (add_clause_verbatim _ _ _ _ _) as [[[o cx2] p2]| |] eqn:B; try discriminate. cbn [bind] in E. inversion E; subst. cbn [so_state sta_search se_prop].
  rewrite <- A. clear A E. unfold add_clause_verbatim in B. destruct c as [|a [|b [|d r]]].
  - inversion B; subst; auto.
  - destruct (pa_is_false _ _) as [f| |]; try discriminate. cbn [bind] in B. destruct f; [inversion B; subst; auto|].
    destruct (assign _ _ _) as [p1| |] eqn:E1; try discriminate. cbn [bind] in B. inversion B; subst. right. exists a. split; auto.
    rewrite (assign_steps _ _ _ _ E1), map_app. reflexivity.
  - destruct (bin_add _ _ _); try discriminate. cbn [bind] in B. inversion B; subst. auto.
  - destruct (long_add_clause _ _ _) as [[oc lg]| |]; try discriminate. cbn [bind] in B. destruct oc as [rf|]; try discriminate.
    repeat match type of B with bind ?x _ = _ => destruct x; try discriminate; cbn [bind] in B end.
    all: try (destruct (ws_enabled _)); repeat match type of B with bind ?x _ = _ => destruct x; try discriminate; cbn [bind] in B end; inversion B; subst; auto.
Qed.

Lemma built_trail dbg F s : built dbg F s -> (forall l, In l (slits (se_ss (so_se s))) -> In [l] F) /\
  (distinct_units F -> NoDup (slits (se_ss (so_se s)))).
Proof.
  induction 1 as [|F s c s' _ [I1 I2] Hv E|F s _ IH|F s _ IH]; auto.
  - cbn. split; [tauto|]. intros _. constructor.
  - assert (Sub : distinct_units (F ++ [c]) -> distinct_units F /\ forall a, c = [a] -> ~ In [a] F).
    { unfold distinct_units. rewrite filter_app. intro D. split.
      - apply NoDup_app_iff in D. apply D.
      - intros a -> Ha. apply NoDup_app_iff in D as (_ & _ & D). apply (D [a]); [apply filter_In; split; auto|]. left; auto. }
    destruct (add_trail _ _ _ _ E) as [->|(a & -> & ->)].
    + split; [intros; apply in_or_app; auto|]. intro D. apply I2. apply Sub; auto.
    + split; [intros l Hl; apply in_app_or in Hl as [Hl|[<-|[]]]; apply in_or_app; simpl; auto|].
      intro D. destruct (Sub D) as [D1 D2]. apply NoDup_app_iff. split; [auto|]. split; [repeat constructor; auto|].
      intros x Hx [<-|[]]. apply (D2 a eq_refl). apply I1. auto.
Qed.

Lemma unit_clauses_snoc F c : unit_clauses F <= unit_clauses (F ++ [c]).
Proof. unfold unit_clauses. rewrite filter_app, app_length. lia. Qed.
Lemma taken_snoc F c : taken_units (F ++ [c]) = take_unit (taken_units F) c.
Proof. unfold taken_units. rewrite fold_left_app. reflexivity. Qed.
Lemma taken_le F : length (taken_units F) <= unit_clauses F.
Proof.
  induction F as [|c F IH] using rev_ind; [auto|]. rewrite taken_snoc. unfold unit_clauses in *. rewrite filter_app, app_length.
  destruct c as [|l [|]]; cbn [take_unit filter length Nat.eqb] in *; try lia. destruct (existsb _ _); [lia|]. rewrite app_length. cbn [length]. lia.
Qed.
Lemma taken_snoc_le F c : length (taken_units F) <= length (taken_units (F ++ [c])).
Proof. rewrite taken_snoc. destruct c as [|l [|]]; cbn [take_unit]; auto. destruct (existsb _ _); [auto|]. rewrite app_length. lia. Qed.
(** What a unit clause does to the trail *)
Lemma add_steps dbg s c s' : solver_add_clause dbg s c = Ret s' ->
  match c with
  | [a] => se_ss (so_se s') = se_ss (so_se s) /\ pa_is_false (p_values (se_prop (so_se s'))) a = Ret true \/
           se_ss (so_se s') = se_ss (so_se s) ++ [mkStep a 0 RUnit]
  | _ => se_ss (so_se s') = se_ss (so_se s)
  end.
Proof.
  unfold solver_add_clause. set (X := if Nat.ltb _ _ then _ else _). intro E.
  assert (A : forall cx1 se1, X = Ret (cx1, se1) -> se_ss se1 = se_ss (so_se s)).
  { unfold X. intros cx1 se1 E1. destruct (Nat.ltb _ _); [|inversion E1; subst; auto]. unfold search_resize in E1. destruct (vsids_resize _ _); try discriminate. cbn [bind] in E1.
    inversion E1; subst. reflexivity. }
  destruct X as [[cx1 se1]| |]; try discriminate. cbn [bind] in E. specialize (A _ _ eq_refl).
  destruct (add_clause_verbatim _ _ _ _ _) as [[[o cx2] p2]| |] eqn:B; try discriminate. cbn [bind] in E. inversion E; subst. cbn [so_state sta_search se_prop].
  rewrite <- A. clear A E. unfold add_clause_verbatim in B. destruct c as [|a [|b [|d r]]].
  - inversion B; subst; auto.
  - destruct (pa_is_false _ _) as [f| |] eqn:Ef; try discriminate. cbn [bind] in B. destruct f; [left; inversion B; subst; auto|].
    destruct (assign _ _ _) as [p1| |] eqn:E1; try discriminate. cbn [bind] in B. inversion B; subst. right. apply (assign_steps _ _ _ _ E1).
  - destruct (bin_add _ _ _); try discriminate. cbn [bind] in B. inversion B; subst. auto.
  - destruct (long_add_clause _ _ _) as [[oc lg]| |]; try discriminate. cbn [bind] in B. destruct oc as [rf|]; try discriminate.
    repeat match type of B with bind ?x _ = _ => destruct x; try discriminate; cbn [bind] in B end.
    all: try (destruct (ws_enabled _)); repeat match type of B with bind ?x _ = _ => destruct x; try discriminate; cbn [bind] in B end; inversion B; subst; auto.
Qed.
Lemma built_taken dbg F s : built dbg F s -> map (fun x => (s_lit x, s_level x)) (se_ss (so_se s)) = map (fun l => (l, 0)) (taken_units F).
Proof.
  induction 1 as [|F s c s' HB IH Hv E|F s _ IH|F s _ IH]; auto. pose proof (built_add _ _ _ _ _ HB Hv E) as HB'. apply PSI_built in HB'. destruct HB' as [(es & H) _ _ _ _ _ _].
  pose proof (pi_vr _ _ _ _ (s_pi _ _ _ _ _ _ _ _ H)) as VRs. pose proof (add_steps _ _ _ _ E) as A. rewrite taken_snoc.
  assert (Sl : slits (se_ss (so_se s)) = taken_units F).
  { apply (f_equal (map fst)) in IH. rewrite !map_map in IH. cbn [fst] in IH. rewrite map_id in IH. exact IH. }
  destruct c as [|a [|b r]]; cbn [take_unit]; try (rewrite A; exact IH).
  assert (Hin : existsb (N.eqb (neg a)) (taken_units F) = true <-> In (neg a) (slits (se_ss (so_se s)))).
  { rewrite Sl, existsb_exists. split; [intros (x & Hx & Q); apply N.eqb_eq in Q; subst x; exact Hx|intro Hx; exists (neg a); split; [exact Hx|apply N.eqb_refl]]. }
  destruct A as [[A B]|A].
  - assert (Ha : vidx a < cnf_vars (F ++ [[a]])) by (rewrite cnf_vars_snoc; pose proof (clause_vars_lt [a] a (or_introl eq_refl)); lia).
    rewrite (VR_false _ _ _ _ VRs Ha) in B. injection B as B. rewrite A in B. apply inb_true in B. apply Hin in B. rewrite B, A. exact IH.
  - destruct (existsb _ _) eqn:Ex.
    + exfalso. pose proof (proj1 Hin eq_refl) as I. eapply (VR_cons _ _ _ a VRs); rewrite A, map_app; apply in_or_app; [right; left; reflexivity|left; exact I].
    + rewrite A, !map_app, IH. reflexivity.
Qed.
Lemma built_units dbg F s : built dbg F s -> length (se_ss (so_se s)) <= unit_clauses F.
Proof.
  induction 1 as [|F s c s' _ IH Hv E|F s _ IH|F s _ IH]; auto.
  - pose proof (unit_clauses_snoc F c) as G.
    destruct (add_trail _ _ _ _ E) as [A|(a & -> & A)]; apply (f_equal (@length N)) in A; rewrite ?app_length, !map_length in A; [lia|].
    unfold unit_clauses in *. rewrite filter_app, app_length. cbn [filter length Nat.eqb] in *. lia.
Qed.

Definition counters (s : stats) : nat * nat * nat * nat * nat :=
  (st_propagations s, st_decisions s, st_conflicts s, st_restarts s, st_reductions s).
Lemma counters_cx_with cx s : counters (cx_stats (cx_with cx s)) = counters s.
Proof. reflexivity. Qed.

Lemma add_counters dbg s c s' : solver_add_clause dbg s c = Ret s' -> counters (cx_stats (so_ctx s')) = counters (cx_stats (so_ctx s)) /\ st_fixed_vars (cx_stats (so_ctx s')) = st_fixed_vars (cx_stats (so_ctx s)).
Proof.
  unfold solver_add_clause. set (X := if Nat.ltb _ _ then _ else _). intro E.
  assert (A : forall cx1 se1, X = Ret (cx1, se1) -> counters (cx_stats cx1) = counters (cx_stats (so_ctx s)) /\ st_fixed_vars (cx_stats cx1) = st_fixed_vars (cx_stats (so_ctx s))).
  { unfold X. intros cx1 se1 E1. destruct (Nat.ltb _ _); [|inversion E1; subst; auto]. destruct (search_resize _ _); try discriminate. cbn [bind] in E1.
    inversion E1; subst. (split; reflexivity). }
  destruct X as [[cx1 se1]| |]; try discriminate. cbn [bind] in E. specialize (A _ _ eq_refl).
  assert (B : forall o cx2 p2, add_clause_verbatim dbg cx1 (se_prop se1) lh_new_input c = Ret (o, cx2, p2) -> counters (cx_stats cx2) = counters (cx_stats cx1) /\ st_fixed_vars (cx_stats cx2) = st_fixed_vars (cx_stats cx1)).
  { intros o cx2 p2. unfold add_clause_verbatim. destruct c as [|a [|b [|d r]]].
    - intro H; inversion H; subst; auto.
    - destruct (pa_is_false _ _) as [f| |]; try discriminate. cbn [bind]. destruct f; [intro H; inversion H; subst; auto|].
      destruct (assign _ _ _); try discriminate. cbn [bind]. intro H; inversion H; subst; auto.
    - destruct (bin_add _ _ _); try discriminate. cbn [bind]. intro H; inversion H; subst. (split; reflexivity).
    - destruct (long_add_clause _ _ _) as [[oc lg]| |]; try discriminate. cbn [bind]. destruct oc as [rf|]; try discriminate.
      repeat match goal with |- bind ?x _ = _ -> _ => destruct x; try discriminate; cbn [bind] end.
      all: try (destruct (ws_enabled _)); repeat match goal with |- bind ?x _ = _ -> _ => destruct x; try discriminate; cbn [bind] end; intro H; inversion H; subst; destruct (lh_redundant _); (split; reflexivity). }
  destruct (add_clause_verbatim _ _ _ _ _) as [[[o cx2] p2]| |]; try discriminate. cbn [bind] in E. inversion E; subst. cbn [so_ctx].
  specialize (B _ _ _ eq_refl). clear E. destruct A as [A1 A2], B as [B1 B2]. split; [rewrite B1; exact A1|rewrite B2; exact A2].
Qed.
Lemma built_counters dbg F s : built dbg F s -> counters (cx_stats (so_ctx s)) = (0, 0, 0, 0, 0) /\ st_fixed_vars (cx_stats (so_ctx s)) = 0.
Proof.
  induction 1 as [|F s c s' _ IH Hv E|F s _ IH|F s _ IH]; auto. pose proof (add_counters _ _ _ _ E). intuition congruence.
Qed.


Record MI (dbg : bool) (F : list (list N)) (s : solver) : Prop := {
  mi_si : exists K L steps es, ((nodup_start dbg F -> K = 0) /\ K <= length (taken_units F)) /\ SOI K (cnf_vars F) F L steps es s;
  mi_luby : sc_luby (so_sc s) = wstate (st_restarts (cx_stats (so_ctx s))) }.

Definition anysel (select : selection) : Prop := select_ok (fun _ _ => True) select.

Lemma MI_built dbg F s : built dbg F s -> MI dbg F s.
Proof.
  intro HB. pose proof HB as H. apply PSI_built in H. destruct H as [(es & H) A1 A2 A3 A4 A5 [A6 A7]]. constructor.
  - destruct dbg; [exists (Kof true s), [], [], es; split; [split; [auto|apply Nat.le_0_l]|exact H]|].
    destruct (distinct_units_dec F) as [D|D]; [|exists (Kof false s), [], [], es; split; [split; [intros [X|X]; [discriminate|contradiction]|pose proof (built_taken _ _ _ HB) as T; apply (f_equal (@length _)) in T; rewrite !map_length in T; cbn [Kof]; rewrite T; auto]|exact H]].
    exists 0, [], [], es. split; [split; [auto|apply Nat.le_0_l]|]. destruct H as [X1 X2 X3 X4 X5 X6 X7 X8 X9 X10 X11 X12 X13]. constructor; auto.
    + intros i j x y Lt Hi Hj Exy. pose proof (proj2 (built_trail _ _ _ HB) D) as ND. exfalso.
      assert (Q : i = j); [|lia]. apply (NoDup_nth_error (slits (se_ss (so_se s)))); auto.
      * rewrite map_length. apply nth_error_Some. congruence.
      * rewrite (map_nth_error _ _ _ Hi), (map_nth_error _ _ _ Hj). congruence.
    + rewrite (proj2 (built_counters _ _ _ HB)). lia.
  - rewrite A5, A7. reflexivity.
Qed.

Lemma MI_step select dbg F s r cx st : anysel select -> MI dbg F s ->
  schedule_search_step select dbg (so_ctx s) (so_state s) = Ret (r, cx, st) -> MI dbg F (mkSolver cx st).
Proof.
  intros Hs [(K & L & steps & es & HK & H) HL] E.
  destruct (schedule_step_ok select _ dbg K _ F L steps es (so_ctx s) (so_state s) Hs (fun e => proj1 HK (or_introl e)) H) as [[E1 _]|(r' & cx' & st' & L1 & steps1 & es1 & E1 & O)];
    rewrite E in E1; [discriminate|]. inversion E1; subst r' cx' st'. constructor.
  - exists K, L1, steps1, es1. split; auto. apply O.
  - cbn [so_state so_ctx]. pose proof (sc_rst _ _ _ _ _ _ _ _ _ _ _ _ _ O) as T.
    destruct (restarts_now _ _); destruct T as (T1 & T2 & _); rewrite T1, T2, HL; reflexivity.
Qed.

Lemma SI_value K n F L steps es cx se l : SI K n F L steps es cx se -> vidx l < n ->
  pa_value (p_values (se_prop se)) l = Ret (if inb l (slits (se_ss se)) then Some true else if inb (neg l) (slits (se_ss se)) then Some false else None).
Proof. intros H Hl. apply (VR_value n); auto. apply (s_pi _ _ _ _ _ _ _ _ H). Qed.

(** ** Adding a clause later *)
Lemma distinct_units_snoc F c : length c <> 1 -> distinct_units (F ++ [c]) -> distinct_units F.
Proof. unfold distinct_units. rewrite filter_app. cbn [filter]. destruct (Nat.eqb_spec (length c) 1); [contradiction|]. rewrite app_nil_r. auto. Qed.

Lemma late_add_core dbg K F L steps es s c : SOI K (cnf_vars F) F L steps es s -> valid_clause c -> watchable s c ->
  (solver_add_clause dbg s c = Panic PFull /\ (afull (p_long (se_prop (so_se s))) \/ (HEADER_MASK < N.of_nat (length c))%N)) \/
  exists s' es', solver_add_clause dbg s c = Ret s' /\ SOI K (cnf_vars (F ++ [c])) (F ++ [c]) L steps es' s' /\
    st_restarts (cx_stats (so_ctx s')) = st_restarts (cx_stats (so_ctx s)) /\ sta_schedule (so_state s') = sta_schedule (so_state s).
Proof.
  intros H Hc Hw. unfold SOI in H. unfold solver_add_clause.
  pose proof (sti_vars _ _ _ _ _ (s_st _ _ _ _ _ _ _ _ H)) as Ev.
  set (m := Nat.max (cnf_vars F) (clause_var_count c)).
  assert (NF : forall a, In a c -> solver_value s a <> Ret (Some false) -> ~ In (neg a) (slits (se_ss (so_se s)))).
  { intros a Ha Hn Hi. apply Hn. unfold solver_value. rewrite Ev.
    assert (G : vidx a < cnf_vars F).
    { pose proof (VR_range _ _ _ _ (pi_vr _ _ _ _ (s_pi _ _ _ _ _ _ _ _ H)) Hi) as G. rewrite vidx_neg in G. exact G. }
    destruct (Nat.ltb_spec (vidx a) (cnf_vars F)); [|lia]. rewrite (SI_value _ _ _ _ _ _ _ _ _ H G).
    rewrite (proj2 (inb_true _ _) Hi). destruct (inb_spec a (slits (se_ss (so_se s)))) as [I|I]; auto.
    exfalso. eapply VR_cons; [apply (pi_vr _ _ _ _ (s_pi _ _ _ _ _ _ _ _ H))| |]; eauto. }
  assert (A : exists cx1 se1, (if st_vars (cx_stats (so_ctx s)) <? clause_var_count c
     then let* se := search_resize (so_se s) (clause_var_count c) in Ret (cx_set_vars (so_ctx s) (clause_var_count c), se)
     else Ret (so_ctx s, so_se s)) = Ret (cx1, se1) /\ SI K m F L steps es cx1 se1 /\
     se_ss se1 = se_ss (so_se s) /\ p_long (se_prop se1) = p_long (se_prop (so_se s)) /\
     st_restarts (cx_stats cx1) = st_restarts (cx_stats (so_ctx s))).
  { rewrite Ev. destruct (Nat.ltb_spec (cnf_vars F) (clause_var_count c)) as [G|G].
    - destruct (SI_resize _ _ (clause_var_count c) _ _ _ _ _ _ H) as (se1 & E & H1 & Ep); [lia|apply clause_vars_valid; auto|].
      rewrite E. cbn [bind]. exists (cx_set_vars (so_ctx s) (clause_var_count c)), se1. split; auto.
      replace m with (clause_var_count c) by lia. rewrite Ep. auto 15.
    - exists (so_ctx s), (so_se s). replace m with (cnf_vars F) by lia. auto 15. }
  destruct A as (cx1 & se1 & E1 & H1 & S1 & A1 & R1). rewrite E1. cbn [bind].
  destruct (late_ok dbg K m F L steps es cx1 se1 c H1) as [[E HF]|(ad & p' & es' & E & H2)].
  { intros x Hx. pose proof (clause_vars_lt _ _ Hx). lia. }
  { rewrite S1. destruct c as [|a [|b r]]; auto. cbn in Hw. destruct Hw as [W1 W2]. split; apply NF; simpl; auto. }
  - left. rewrite E. split; [reflexivity|]. rewrite A1 in HF. exact HF.
  - right. rewrite E. cbn [bind]. eexists _, es'. split; [reflexivity|]. cbn [so_state so_ctx sta_search sta_schedule]. split; [|split; [|reflexivity]].
    + unfold SOI. rewrite cnf_vars_snoc. exact H2.
    + cbn [cx_with cx_stats]. rewrite st_add_restarts. exact R1.
Qed.
Lemma watchable_units dbg F s c : watchable s c -> nodup_start dbg (F ++ [c]) -> nodup_start dbg F.
Proof.
  intros Hw [D|D]; [left; auto|right]. eapply distinct_units_snoc; [|exact D]. destruct c as [|a [|b r]]; cbn; try lia. contradiction.
Qed.
Lemma late_add_ok dbg F s c : MI dbg F s -> valid_clause c -> watchable s c ->
  (solver_add_clause dbg s c = Panic PFull /\ (afull (p_long (se_prop (so_se s))) \/ (HEADER_MASK < N.of_nat (length c))%N)) \/
  exists s', solver_add_clause dbg s c = Ret s' /\ MI dbg (F ++ [c]) s'.
Proof.
  intros [(K & L & steps & es & HK & H) HL] Hc Hw.
  destruct (late_add_core dbg _ _ _ _ _ _ _ H Hc Hw) as [E|(s' & es' & E & H1 & R & Sc)]; [left; auto|right].
  exists s'. split; auto. constructor; [|rewrite R, Sc; exact HL].
  exists K, L, steps, es'. split; [|exact H1]. split; [intro D; apply HK; eapply watchable_units; eauto|]. pose proof (taken_snoc_le F c). lia.
Qed.

Lemma MI_reach select dbg F s : anysel select -> reach select dbg F s -> MI dbg F s.
Proof.
  intros Hs. induction 1 as [F s H|F s r cx st _ IH E|F s _ [(K & L & steps & es & HK & H) HL]|F s c s' _ IH Hc Hw E].
  - apply MI_built; auto.
  - eapply MI_step; eauto.
  - constructor; auto. exists K, L, steps, es. split; auto. apply SI_proof; [exact H|]. discriminate.
  - destruct (late_add_ok _ _ _ _ IH Hc Hw) as [[E1 _]|(s1 & E1 & H1)]; rewrite E1 in E; [discriminate|]. inversion E; subst. exact H1.
Qed.

(** A call of solve only passes through reachable states. *)
Lemma reach_solve select dbg F fuel : forall s b s', reach select dbg F s -> solve select dbg fuel s = Ret (b, s') -> reach select dbg F s'.
Proof.
  induction fuel as [|f IH]; intros s b s' H E; [discriminate|]. cbn [solve] in E.
  destruct (schedule_search_step select dbg (so_ctx s) (so_state s)) as [[[r cx] st]|p|] eqn:E1; cbn [bind] in E; try discriminate.
  destruct r as [b'|].
  - destruct (report dbg cx); cbn [bind] in E; try discriminate. inversion E; subst. eapply reach_step; eauto.
  - eapply IH; [|exact E]. eapply reach_step; eauto.
Qed.

(** ** Models *)
Lemma model_ok K n F L steps es cx se c : SI K n F L steps es cx se -> p_unsat (se_prop se) = false ->
  t_propagated (p_trail (se_prop se)) = length (se_ss se) -> all_assigned n (se_ss se) -> In c F ->
  exists l, In l c /\ In l (slits (se_ss se)).
Proof.
  intros H Hu Hq Ha Hc. pose proof (s_pi _ _ _ _ _ _ _ _ H) as HP. pose proof (s_db _ _ _ _ _ _ _ _ H) as HD.
  assert (HcL : In c (L ++ F)) by (apply in_or_app; auto).
  destruct c as [|a [|b r]].
  - exfalso. pose proof (db_empty _ _ _ _ _ _ HD HcL). congruence.
  - destruct (db_fact _ _ _ _ _ _ HD a HcL) as [U|(s & Hs & <- & _)]; [congruence|]. exists (s_lit s). split; [left; auto|apply in_map; auto].
  - destruct (db_stored_rev HD n (a :: b :: r)) as (cl & Hst & P); auto; [|cbn [length]; lia|].
    { intros x Hx. eapply (s_var _ _ _ _ _ _ _ _ H); eauto. }
    assert (G : exists l, In l cl /\ In l (slits (se_ss se))).
    { destruct Hst as [(c0 & h & Hi & Hne)|(x & y & -> & Hx & Hy)].
      - destruct cl as [|u [|v w]]; [congruence| |].
        + destruct (pi_ll _ _ _ _ HP _ _ _ Hi Hne) as (A & _). cbn [length] in A. lia.
        + assert (Hvu : vidx u < n) by (apply (pi_ll _ _ _ _ HP _ _ _ Hi Hne); left; auto).
          destruct (Ha u Hvu) as [G|G]; [exists u; split; [left; auto|auto]|].
          destruct (pi_pl _ _ _ _ HP _ _ _ _ _ Hi u (or_introl eq_refl)) as (t & T1 & T2 & _); [rewrite Hq, firstn_all; auto|eauto].
      - destruct (Ha x Hx) as [G|G]; [exists x; split; [left; auto|auto]|].
        destruct (pi_pb _ _ _ _ HP x y Hx Hy) as [T _]; [rewrite Hq, firstn_all; auto|]. exists y. split; [right; left; auto|auto]. }
    destruct G as (l & A & B). exists l. split; auto. eapply Permutation_in; eauto.
Qed.

(** The only panic of [solve]. *)
Lemma afull_arena s : afull (p_long (se_prop (so_se s))) <-> arena_full s.
Proof. unfold afull, arena_full, awords, arena_words, LITIDX_MAX. change (2 ^ 32)%N with 4294967296%N. lia. Qed.
Lemma solve_full select dbg F fuel : anysel select -> forall s p, reach select dbg F s -> solve select dbg fuel s = Panic p ->
  p = PFull /\ exists s1, reach select dbg F s1 /\ arena_full s1.
Proof.
  intro Hs. induction fuel as [|f IH]; intros s p HR E; [discriminate|]. cbn [solve] in E.
  destruct (MI_reach _ _ _ _ Hs HR) as [(K & L & steps & es & HK & H) _].
  destruct (schedule_step_ok select _ dbg K _ F L steps es (so_ctx s) (so_state s) Hs (fun e => proj1 HK (or_introl e)) H) as [[E1 HF]|(r & cx & st & L1 & steps1 & es1 & E1 & O)];
    rewrite E1 in E; cbn [bind] in E.
  - inversion E; subst. split; auto. exists s. split; auto. apply afull_arena; auto.
  - destruct r as [b|].
    + rewrite (report_ok _ _ _ _ _ _ _ _ dbg (sc_si _ _ _ _ _ _ _ _ _ _ _ _ _ O) (fun e => proj1 HK (or_introl e))) in E. discriminate.
    + eapply IH; [|exact E]. eapply reach_step; eauto.
Qed.

Lemma adds_built dbg F : forall F0 s s', built dbg F0 s -> valid_cnf F -> add_clauses dbg s F = Ret s' -> built dbg (F0 ++ F) s'.
Proof.
  induction F as [|c F IH]; intros F0 s s' HB HV E; unfold add_clauses in E; cbn [foldM] in E.
  - inversion E; subst. rewrite app_nil_r. auto.
  - destruct (solver_add_clause dbg s c) as [s1| |] eqn:E1; cbn [bind] in E; try discriminate.
    change (c :: F) with ([c] ++ F). rewrite app_assoc. eapply IH; [|intros c' Hc'; apply HV; right; auto|exact E].
    eapply built_add; eauto. apply HV. left; auto.
Qed.
