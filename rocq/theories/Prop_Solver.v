(** C01-C12, C20: what a user of [Solver] can rely on.

    [select] is any function with the contract of [select_nth_unstable] (even
    without the order part), [dbg] the build mode, [F] the added clauses. *)
From Coq Require Import NArith List Bool Arith Lia Permutation ZifyN ZifyNat ZifyBool.
From Verif Require Import Model_Base Model_Lit Model_PartialAssignment Model_Header Model_Arena Model_Prop
  Model_Heap Model_Vsids Model_Analysis Model_Luby Model_Solver Spec Drivers_Solver Proof_Base Proof_PA Proof_Lit
  Proof_Long Proof_Trail Proof_Inv Proof_DB Proof_Size Proof_Solver Proof_Search Proof_Solve Proof_Add Proof_Main Proof_Select Examples_Solver.
Import ListNotations.

(** What is known after a call of [solve]. *)
Lemma solve_inv select dbg F fuel s b s' : select_ok (fun _ _ => True) select -> reach select dbg F s ->
  solve select dbg fuel s = Ret (b, s') ->
  exists K L steps es, SOI K (cnf_vars F) F L steps es s' /\ solved (cnf_vars F) b s' L.
Proof.
  intros Hs HR E. destruct (MI_reach _ _ _ _ Hs HR) as [(K & L & steps & es & HK & H) _].
  destruct (solve_ok select _ dbg K (cnf_vars F) F Hs (fun e => proj1 HK (or_introl e)) fuel L steps es s H) as [E1|[E1|(b1 & s1 & L' & steps' & es' & E1 & H1 & _ & _ & R & _)]];
    rewrite E in E1; try discriminate. inversion E1; subst. exists K, L', steps', es'. auto.
Qed.

(** ** C01 *)
Theorem solve_true_model select dbg F fuel s s' :
  select_ok (fun _ _ => True) select -> reach select dbg F s ->
  solve select dbg fuel s = Ret (true, s') ->
  forall c, In c F -> exists l, In l c /\ solver_value s' l = Ret (Some true).
Proof.
  intros Hs HR E c Hc. destruct (solve_inv _ _ _ _ _ _ _ Hs HR E) as (K & L & steps & es & H & R1 & R2 & R3).
  destruct (model_ok _ _ _ _ _ _ _ _ c H R1 R2 R3 Hc) as (l & Hl & Ht). exists l. split; auto.
  unfold solver_value. rewrite (sti_vars _ _ _ _ _ (s_st _ _ _ _ _ _ _ _ H)).
  pose proof (s_var _ _ _ _ _ _ _ _ H c l Hc Hl) as Hv. rewrite (proj2 (Nat.ltb_lt _ _) Hv).
  rewrite (SI_value _ _ _ _ _ _ _ _ l H Hv). rewrite (proj2 (inb_true _ _)); auto.
Qed.

(** The assignment read back through [value] satisfies the formula. *)
Theorem solve_true_satisfies select dbg F fuel s s' :
  select_ok (fun _ _ => True) select -> reach select dbg F s ->
  solve select dbg fuel s = Ret (true, s') ->
  sat_cnf (fun v => match solver_value s' (2 * v + 1)%N with Ret (Some b) => b | _ => false end) F.
Proof.
  intros Hs HR E c Hc. destruct (solve_true_model _ _ _ _ _ _ Hs HR E c Hc) as (l & Hl & V). exists l. split; auto.
  destruct (solve_inv _ _ _ _ _ _ _ Hs HR E) as (K & L & steps & es & H & _).
  unfold sat_lit. unfold solver_value in *. rewrite (sti_vars _ _ _ _ _ (s_st _ _ _ _ _ _ _ _ H)) in *.
  assert (G : forall x, vidx x = N.to_nat (x / 2)).
  { intro x. unfold vidx. rewrite N.shiftr_div_pow2. reflexivity. }
  assert (G2 : vidx (2 * (l / 2) + 1) = vidx l). { rewrite !G. f_equal. rewrite N.mul_comm, N.div_add_l by lia. cbn. lia. }
  rewrite G2. pose proof (s_var _ _ _ _ _ _ _ _ H c l Hc Hl) as Hv. rewrite (proj2 (Nat.ltb_lt _ _) Hv) in *.
  rewrite (SI_value _ _ _ _ _ _ _ _ _ H) by (rewrite G2; auto). rewrite (SI_value _ _ _ _ _ _ _ _ _ H) in V by auto.
  destruct (inb_spec l (slits (t_steps (p_trail (se_prop (sta_search (so_state s'))))))) as [I|I].
  2:{ destruct (inb (neg l) _); discriminate. }
  assert (D : (l = 2 * (l / 2) + if N.odd l then 1 else 0)%N).
  { rewrite (N.div_mod l 2) at 1 by lia. f_equal. rewrite <- N.bit0_mod, N.bit0_odd. destruct (N.odd l); reflexivity. }
  destruct (N.odd l) eqn:O.
  - rewrite <- D. rewrite (proj2 (inb_true _ _)); auto.
  - assert (Nl : neg l = (2 * (l / 2) + 1)%N) by (unfold neg; rewrite O; lia). rewrite <- Nl, neg_neg.
    rewrite (proj2 (inb_true _ _) I). rewrite (proj2 (inb_false _ _)); auto. intro Q.
    eapply VR_cons; [apply (pi_vr _ _ _ _ (s_pi _ _ _ _ _ _ _ _ H))|exact I|exact Q].
Qed.

Example solve_true_model_example : exists s', solve select_sort true 1000 (added true sat5) = Ret (true, s') /\
  reach select_sort true sat5 (added true sat5) /\
  map (fun v => solver_value s' (2 * v + 1)%N) [0; 1; 2]%N = [Ret (Some true); Ret (Some true); Ret (Some true)].
Proof.
  exists (snd (outcome true sat5)). split; [apply sat5_solve|]. split; [apply reach_built, sat5_built|]. vm_compute. reflexivity.
Qed.

(** ** C02 *)
Theorem solve_false_unsat select dbg F fuel s s' :
  select_ok (fun _ _ => True) select -> reach select dbg F s ->
  solve select dbg fuel s = Ret (false, s') -> ~ satisfiable F.
Proof.
  intros Hs HR E. destruct (solve_inv _ _ _ _ _ _ _ Hs HR E) as (K & L & steps & es & H & R).
  eapply refuted_unsat. apply (s_us _ _ _ _ _ _ _ _ H). exact R.
Qed.
Example solve_false_unsat_example : ~ satisfiable php4.
Proof. eapply solve_false_unsat; [apply any_select_sort|apply reach_built, (php4_built true)|apply php4_solve]. Qed.

(** ** C03 *)
Theorem solve_terminates select dbg F s :
  select_ok (fun _ _ => True) select -> reach select dbg F s ->
  exists fuel, forall f, fuel <= f ->
    (exists b s', solve select dbg f s = Ret (b, s')) \/
    (solve select dbg f s = Panic PFull /\ exists s1, reach select dbg F s1 /\ arena_full s1).
Proof.
  intros Hs HR. destruct (MI_reach _ _ _ _ Hs HR) as [(K & L & steps & es & HK & H) HL].
  pose proof (solve_halts select _ dbg K (cnf_vars F) F Hs (fun e => proj1 HK (or_introl e)) L steps es s _ (K + cnf_vars F) H HL ltac:(lia)) as Hf. set (fuel := _ * _) in Hf.
  exists fuel. intros f Hle. rewrite (solve_more select dbg fuel f s _ Hle eq_refl Hf).
  destruct (solve select dbg fuel s) as [[b s']|p|] eqn:E; [left; eauto|right|congruence].
  destruct (solve_full select dbg F fuel Hs s p HR E) as [-> G]. auto.
Qed.
Theorem solve_terminates_in_bounds select dbg F s :
  select_ok (fun _ _ => True) select -> reach select dbg F s ->
  (forall s1, reach select dbg F s1 -> ~ arena_full s1) ->
  exists fuel b s', forall f, fuel <= f -> solve select dbg f s = Ret (b, s').
Proof.
  intros Hs HR Hn. destruct (solve_terminates _ _ _ _ Hs HR) as [fuel Hf].
  destruct (Hf fuel (le_n _)) as [(b & s' & E)|(_ & s1 & R & A)]; [|destruct (Hn s1 R A)].
  exists fuel, b, s'. intros f Hle. eapply solve_more; [exact Hle|exact E|discriminate].
Qed.
Example solve_terminates_example : exists b s', solve select_sort false 1000 (added false php4) = Ret (b, s') /\ b = false.
Proof. eexists _, _. split; [apply php4_solve|reflexivity]. Qed.

(** ** C04: neither [solve] nor [value] panics, and no model-internal fuel runs
    out in a search step. *)
Theorem solve_no_panic select dbg F fuel s p :
  select_ok (fun _ _ => True) select -> reach select dbg F s ->
  solve select dbg fuel s = Panic p -> p = PFull /\ exists s1, reach select dbg F s1 /\ arena_full s1.
Proof. intros Hs HR. apply solve_full; auto. Qed.
Theorem step_no_panic select dbg F s :
  select_ok (fun _ _ => True) select -> reach select dbg F s ->
  (exists r cx st, schedule_search_step select dbg (so_ctx s) (so_state s) = Ret (r, cx, st)) \/
  (schedule_search_step select dbg (so_ctx s) (so_state s) = Panic PFull /\ arena_full s).
Proof.
  intros Hs HR. destruct (MI_reach _ _ _ _ Hs HR) as [(K & L & steps & es & HK & H) _].
  destruct (schedule_step_ok select _ dbg K _ F L steps es (so_ctx s) (so_state s) Hs (fun e => proj1 HK (or_introl e)) H) as [[E HF]|(r & cx & st & _ & _ & _ & E & _)].
  - right. split; auto. apply afull_arena; auto.
  - left. eauto.
Qed.
Theorem value_no_panic select dbg F s l :
  select_ok (fun _ _ => True) select -> reach select dbg F s -> exists o, solver_value s l = Ret o.
Proof.
  intros Hs HR. destruct (MI_reach _ _ _ _ Hs HR) as [(K & L & steps & es & HK & H) _]. unfold solver_value.
  rewrite (sti_vars _ _ _ _ _ (s_st _ _ _ _ _ _ _ _ H)). destruct (Nat.ltb_spec (vidx l) (cnf_vars F)) as [G|G]; [|eauto].
  rewrite (SI_value _ _ _ _ _ _ _ _ l H G). eauto.
Qed.
Example solve_no_panic_example : reach select_sort true php4 (added true php4) /\ ~ arena_full (added true php4).
Proof. split; [apply reach_built, php4_built|]. unfold arena_full. vm_compute. intro H. apply H. reflexivity. Qed.

(** ** C05 *)
Lemma vidx_div l : vidx l = N.to_nat (l / 2).
Proof. unfold vidx. rewrite N.shiftr_div_pow2. reflexivity. Qed.
Theorem value_total_consistent select dbg F fuel s s' l :
  select_ok (fun _ _ => True) select -> reach select dbg F s ->
  solve select dbg fuel s = Ret (true, s') ->
  ((exists c x, In c F /\ In x c /\ (l / 2 <= x / 2)%N) ->
     exists b, solver_value s' l = Ret (Some b) /\ solver_value s' (neg l) = Ret (Some (negb b))) /\
  ((forall c x, In c F -> In x c -> (x / 2 < l / 2)%N) -> solver_value s' l = Ret None).
Proof.
  intros Hs HR E. destruct (solve_inv _ _ _ _ _ _ _ Hs HR E) as (K & L & steps & es & H & R1 & R2 & R3).
  unfold solver_value. rewrite (sti_vars _ _ _ _ _ (s_st _ _ _ _ _ _ _ _ H)). split.
  - intros (c & x & Hc & Hx & Hle). pose proof (s_var _ _ _ _ _ _ _ _ H c x Hc Hx) as Hv.
    assert (Hl : vidx l < cnf_vars F) by (rewrite vidx_div in *; lia).
    rewrite vidx_neg. rewrite (proj2 (Nat.ltb_lt _ _) Hl). rewrite (SI_value _ _ _ _ _ _ _ _ l H Hl).
    rewrite (SI_value _ _ _ _ _ _ _ _ (neg l) H) by (rewrite vidx_neg; auto). rewrite neg_neg.
    pose proof (fun a b => VR_cons _ _ _ l (pi_vr _ _ _ _ (s_pi _ _ _ _ _ _ _ _ H)) a b) as C.
    destruct (R3 l Hl) as [G|G].
    + exists true. rewrite (proj2 (inb_true _ _) G). rewrite (proj2 (inb_false _ _)) by (intro Q; exact (C G Q)). auto.
    + exists false. rewrite (proj2 (inb_true _ _) G). rewrite (proj2 (inb_false _ _)) by (intro Q; exact (C Q G)). auto.
  - intro Hall. destruct (Nat.ltb_spec (vidx l) (cnf_vars F)) as [G|G]; auto. exfalso.
    destruct (cnf_vars_wit F) as [Z|(c & x & Hc & Hx & Z)]; [lia|]. specialize (Hall c x Hc Hx). rewrite vidx_div in *. lia.
Qed.
Example value_total_consistent_example :
  let s' := snd (outcome false sat5) in
  map (solver_value s') [0; 1; 6]%N = [Ret (Some false); Ret (Some true); Ret None].
Proof. vm_compute. reflexivity. Qed.

(** ** C06 *)
Lemma reach_solves select dbg F bs : forall s s', reach select dbg F s -> solves select dbg s bs s' -> reach select dbg F s'.
Proof.
  induction bs as [|b bs IH]; intros s s' HR HS; inversion HS; subst; auto.
  eapply IH; [|eassumption]. match goal with E : solve _ _ _ _ = Ret _ |- _ => eapply reach_solve; [|exact E] end; auto.
Qed.
Theorem solve_repeatable select dbg F s b bs s' :
  select_ok (fun _ _ => True) select -> reach select dbg F s ->
  solves select dbg s (b :: bs) s' ->
  (forall b', In b' bs -> b' = b) /\
  (b = true -> forall c, In c F -> exists l, In l c /\ solver_value s' l = Ret (Some true)).
Proof.
  intros Hs. revert s b. induction bs as [|b1 bs IH]; intros s b HR HS; inversion HS as [|fuel ? ? sa ? ? E HS1]; subst; clear HS.
  - inversion HS1; subst. split; [intros b' []|]. intros ->. eapply solve_true_model; eauto.
  - assert (HRa : reach select dbg F sa) by (eapply reach_solve; [|exact E]; auto).
    destruct (IH _ _ HRa HS1) as [A B]. inversion HS1 as [|f ? ? sb ? ? E1 HS2]; subst.
    assert (G : b1 = b).
    { destruct b, b1; auto; exfalso.
      - eapply solve_false_unsat; [exact Hs|exact HRa|exact E1|]. eexists. exact (solve_true_satisfies _ _ _ _ _ _ Hs HR E).
      - eapply solve_false_unsat; [exact Hs|exact HR|exact E|]. eexists. exact (solve_true_satisfies _ _ _ _ _ _ Hs HRa E1). }
    subst b1. split; [intros b' [<-|Hb]; auto|exact B].
Qed.
Example solve_repeatable_example : exists s', solves select_sort false (added false sat5) [true; true; true] s'.
Proof. eexists. do 3 (eapply (solves_cons _ _ 1000); [apply (solve_answers (true, solver_new)); vm_compute; reflexivity|]). constructor. Qed.

(** ** C07: clauses added after a positive answer.  The property is false of the
    code: [add_clause] looks at the assignment left by the last search (line 97
    of prop.rs tests a unit clause against it) and new clauses are not
    propagated against it.  Two witnesses: a satisfiable formula is reported
    unsatisfiable, and an unsatisfiable one satisfiable. *)
Theorem incremental_refuted :
  exists F c G d,
    (exists s s1 s2 s3, built false F s /\ solve select_sort false 100 s = Ret (true, s1) /\
       valid_clause c /\ solver_add_clause false s1 c = Ret s2 /\
       solve select_sort false 100 s2 = Ret (false, s3) /\ satisfiable (F ++ [c])) /\
    (exists s s1 s2 s3, built false G s /\ solve select_sort false 100 s = Ret (true, s1) /\
       valid_clause d /\ solver_add_clause false s1 d = Ret s2 /\
       solve select_sort false 100 s2 = Ret (true, s3) /\ ~ satisfiable (G ++ [d])).
Proof.
  exists [[3; 5]]%N, [1]%N, [[1]; [3]; [5]]%N, [0; 2; 4]%N. split.
  - eexists _, _, _, _. split; [apply (built_added false [[3; 5]]%N); vm_compute; reflexivity|].
    split; [apply (solve_answers (true, solver_new)); vm_compute; reflexivity|]. split; [intros l [<-|[]]; reflexivity|]. split; [apply (ret_from solver_new); vm_compute; reflexivity|]. split; [apply (solve_answers (true, solver_new)); vm_compute; reflexivity|].
    exists (fun _ => true). intros c [<-|[<-|[]]]; [exists 3%N|exists 1%N]; split; simpl; auto; reflexivity.
  - eexists _, _, _, _. split; [apply (built_added false [[1]; [3]; [5]]%N); vm_compute; reflexivity|].
    split; [apply (solve_answers (true, solver_new)); vm_compute; reflexivity|]. split; [intros l [<-|[<-|[<-|[]]]]; reflexivity|]. split; [apply (ret_from solver_new); vm_compute; reflexivity|]. split; [apply (solve_answers (true, solver_new)); vm_compute; reflexivity|].
    intros [v H]. assert (A : sat_clause v [1]%N) by (apply H; simpl; auto). assert (B : sat_clause v [3]%N) by (apply H; simpl; auto).
    assert (C : sat_clause v [5]%N) by (apply H; simpl; auto). assert (D : sat_clause v [0; 2; 4]%N) by (apply H; simpl; auto).
    destruct A as (a & [<-|[]] & A). destruct B as (b & [<-|[]] & B). destruct C as (c & [<-|[]] & C).
    unfold sat_lit in *. cbn in A, B, C. destruct D as (d & [<-|[<-|[<-|[]]]] & D); unfold sat_lit in D; cbn in D; congruence.
Qed.

(** After a negative answer adding clauses is harmless: every later answer is
    negative, and correctly so.  Missing: histories that add clauses after a
    positive answer (see [incremental_watchable_partial]). *)
Lemma verbatim_unsat dbg cx p h cl a cx' p' : add_clause_verbatim dbg cx p h cl = Ret (a, cx', p') -> p_unsat p = true -> p_unsat p' = true.
Proof.
  intros E U. destruct cl as [|x [|y [|z r]]]; cbn [add_clause_verbatim] in E.
  - inversion E; auto.
  - destruct (pa_is_false _ _) as [[]| |]; cbn [bind] in E; try discriminate; [inversion E; auto|].
    unfold assign in E. destruct (assign_raw _ _ _ _) as [[v t]| |]; cbn [bind] in E; try discriminate. inversion E; subst; auto.
  - destruct (bin_add _ _ _); cbn [bind] in E; try discriminate. inversion E; subst; auto.
  - destruct (long_add_clause _ _ _) as [[[c|] a1]| |]; cbn [bind] in E; try discriminate.
    destruct (watch_clause _ _ _ _); cbn [bind] in E; try discriminate. inversion E; subst; auto.
Qed.
Lemma add_unsat dbg s cl s' : solver_add_clause dbg s cl = Ret s' -> p_unsat (se_prop (so_se s)) = true -> p_unsat (se_prop (so_se s')) = true.
Proof.
  unfold solver_add_clause. intros E U.
  destruct (if Nat.ltb _ _ then _ else _) as [[cx1 se1]| |] eqn:E1; cbn [bind] in E; try discriminate.
  assert (U1 : p_unsat (se_prop se1) = true).
  { destruct (Nat.ltb _ _); [|inversion E1; subst; auto]. unfold search_resize in E1.
    destruct (vsids_resize _ _); cbn [bind] in E1; try discriminate. inversion E1; subst; auto. }
  destruct (add_clause_verbatim _ _ _ _ _) as [[[a cx2] p2]| |] eqn:E2; cbn [bind] in E; try discriminate.
  inversion E; subst. cbn. eapply verbatim_unsat; eauto.
Qed.
Lemma adds_unsat dbg G : forall s s', add_clauses dbg s G = Ret s' -> p_unsat (se_prop (so_se s)) = true -> p_unsat (se_prop (so_se s')) = true.
Proof.
  induction G as [|c G IH]; intros s s' E U; unfold add_clauses in E; cbn [foldM] in E; [inversion E; subst; auto|].
  destruct (solver_add_clause dbg s c) eqn:E1; cbn [bind] in E; try discriminate. eapply IH; [exact E|]. eapply add_unsat; eauto.
Qed.
Lemma step_unsat select dbg cx st r cx' st' : schedule_search_step select dbg cx st = Ret (r, cx', st') ->
  p_unsat (se_prop (sta_search st)) = true -> r = Some false /\ p_unsat (se_prop (sta_search st')) = true.
Proof.
  unfold schedule_search_step. intros E U. destruct (should_restart _ _) as [dr sc1].
  destruct (if dr then _ else _) as [[cx1 se1]| |] eqn:E1; cbn [bind] in E; try discriminate.
  assert (U1 : p_unsat (se_prop se1) = true).
  { destruct dr; [|inversion E1; subst; auto]. unfold restart in E1. destruct (Nat.ltb _ _); [|inversion E1; subst; auto].
    unfold backtrack_to_level in E1. destruct (Nat.ltb _ _); [|discriminate]. destruct (vget _ _); cbn [bind] in E1; try discriminate.
    destruct (Nat.leb _ _); [|discriminate]. destruct (foldM _ _ _) as [[[? ?] ?]| |]; cbn [bind] in E1; try discriminate. inversion E1; subst; auto. }
  destruct (should_reduce _ _) as [dd sc2].
  destruct (if dd then _ else _) as [[cx2 se2]| |] eqn:E2; cbn [bind] in E; try discriminate.
  assert (U2 : p_unsat (se_prop se2) = true).
  { destruct dd; [|inversion E2; subst; auto]. destruct (reduce _ _ _) as [[cx3 se3]| |] eqn:E3; cbn [bind] in E2; try discriminate.
    destruct (report _ _); cbn [bind] in E2; try discriminate. inversion E2; subst. unfold reduce in E3.
    destruct (protect_clauses true _ _); cbn [bind] in E3; try discriminate. destruct (candidates_loop _ _ _ _) as [[? cands]| |]; cbn [bind] in E3; try discriminate.
    destruct (match cands with [] => _ | _ :: _ => _ end) as [[? ?]| |]; cbn [bind] in E3; try discriminate.
    destruct (protect_clauses false _ _); cbn [bind] in E3; try discriminate. inversion E3; subst; auto. }
  unfold search_step in E. rewrite U2 in E. cbn [bind] in E. inversion E; subst. auto.
Qed.
Theorem incremental_after_unsat_partial select dbg F fuel fuel2 s s1 G s2 b s3 :
  select_ok (fun _ _ => True) select -> reach select dbg F s ->
  solve select dbg fuel s = Ret (false, s1) -> add_clauses dbg s1 G = Ret s2 ->
  solve select dbg fuel2 s2 = Ret (b, s3) -> b = false /\ ~ satisfiable (F ++ G).
Proof.
  intros Hs HR E EA E2. split.
  - destruct (solve_inv _ _ _ _ _ _ _ Hs HR E) as (K & L & steps & es & H & R). apply (adds_unsat _ _ _ _ EA) in R.
    destruct fuel2 as [|f]; [discriminate|]. cbn [solve] in E2.
    destruct (schedule_search_step _ _ _ _) as [[[r cx] st]| |] eqn:ES; cbn [bind] in E2; try discriminate.
    destruct (step_unsat _ _ _ _ _ _ _ ES R) as [-> _]. destruct (report _ _); cbn [bind] in E2; try discriminate. inversion E2; auto.
  - intros [v Hv]. apply (solve_false_unsat _ _ _ _ _ _ Hs HR E). exists v. intros c Hc. apply Hv. apply in_or_app; auto.
Qed.
Example incremental_after_unsat_example : exists s2 s3,
  add_clauses false (snd (outcome false php4)) [[41]; [1; 3; 50]]%N = Ret s2 /\ solve select_sort false 10 s2 = Ret (false, s3).
Proof.
  eexists _, _. split; [apply (ret_from solver_new); vm_compute; reflexivity|].
  apply (solve_answers (true, solver_new)); vm_compute; reflexivity.
Qed.

(** After any answer, and after an interrupted search, adding clauses whose
    first two literals are not false according to [value] is sound: later
    answers are right for all clauses added so far.  (Late clauses on new
    variables, and clauses the last model satisfies by their first two literals,
    are of this kind.)  Missing: late unit clauses and late clauses one of whose
    first two literals is false, for which [incremental_refuted] shows that the
    code is wrong. *)
Lemma reach_adds select dbg F G : forall s s', reach select dbg F s -> adds_watchable dbg s G s' -> reach select dbg (F ++ G) s'.
Proof.
  revert F. induction G as [|c G IH]; intros F s s' HR HA; inversion HA; subst; [rewrite app_nil_r; auto|].
  change (c :: G) with ([c] ++ G). rewrite app_assoc. eapply IH; [eapply reach_add; eauto|auto].
Qed.
Theorem incremental_watchable_partial select dbg F s G s1 fuel b s2 :
  select_ok (fun _ _ => True) select -> reach select dbg F s -> adds_watchable dbg s G s1 ->
  solve select dbg fuel s1 = Ret (b, s2) ->
  if b then forall c, In c (F ++ G) -> exists l, In l c /\ solver_value s2 l = Ret (Some true)
  else ~ satisfiable (F ++ G).
Proof.
  intros Hs HR HA E. pose proof (reach_adds _ _ _ _ _ _ HR HA) as H1. destruct b.
  - eapply solve_true_model; eauto.
  - eapply solve_false_unsat; eauto.
Qed.
(** One formula, three answers.  The first solution makes literal 1 false.  The
    next four clauses force it to be true, by two new variables; the last four
    force it to be false. *)
Definition more1 : list (list N) := [[5; 7; 1]; [4; 7; 1]; [5; 6; 1]; [4; 6; 1]]%N.
Definition more2 : list (list N) := [[9; 11; 0]; [8; 11; 0]; [9; 10; 0]; [8; 10; 0]]%N.
Fixpoint watchables (dbg : bool) (s : solver) (G : list (list N)) : bool :=
  match G with
  | [] => true
  | c :: G' => match c with
               | a :: b :: _ => match solver_value s a, solver_value s b with
                                | Ret (Some false), _ | _, Ret (Some false) => false
                                | _, _ => match solver_add_clause dbg s c with Ret s' => watchables dbg s' G' | _ => false end
                                end
               | _ => false
               end
  end.
Lemma watchables_ok dbg G : forall s, valid_cnfb G = true -> watchables dbg s G = true ->
  adds_watchable dbg s G (from_res solver_new (add_clauses dbg s G)).
Proof.
  induction G as [|c G IH]; intros s V W; [constructor|]. cbn [valid_cnfb forallb] in V. apply andb_prop in V as [V1 V2].
  cbn [watchables] in W. destruct c as [|a [|b r]]; try discriminate.
  unfold add_clauses. cbn [foldM].
  assert (Q : watchable s (a :: b :: r) /\ exists s', solver_add_clause dbg s (a :: b :: r) = Ret s' /\ watchables dbg s' G = true).
  { cbn [watchable]. destruct (solver_value s a) as [[[]|]| |]; try discriminate; destruct (solver_value s b) as [[[]|]| |]; try discriminate;
      (split; [split; discriminate|]); destruct (solver_add_clause _ _ _); try discriminate; eauto. }
  destruct Q as (Q1 & s1 & E & Q2). rewrite E. cbn [bind]. eapply aw_cons; [|exact Q1|exact E|apply IH; auto].
  intros l Hl. rewrite forallb_forall in V1. apply N.ltb_lt. apply V1. exact Hl.
Qed.
Example incremental_watchable_example :
  exists s1 s2 s3 s4 s5,
    solve select_sort true 100 (added true [[1; 3]]%N) = Ret (true, s1) /\ solver_value s1 1%N = Ret (Some false) /\
    adds_watchable true s1 more1 s2 /\ solve select_sort true 100 s2 = Ret (true, s3) /\ solver_value s3 1%N = Ret (Some true) /\
    adds_watchable true s3 more2 s4 /\ solve select_sort true 100 s4 = Ret (false, s5).
Proof.
  eexists _, _, _, _, _. split; [apply (solve_answers (true, solver_new)); vm_compute; reflexivity|]. split; [vm_compute; reflexivity|].
  split; [apply watchables_ok; vm_compute; reflexivity|]. split; [apply (solve_answers (true, solver_new)); vm_compute; reflexivity|].
  split; [vm_compute; reflexivity|]. split; [apply watchables_ok; vm_compute; reflexivity|].
  apply (solve_answers (true, solver_new)); vm_compute; reflexivity.
Qed.

(** ** C08.  In debug builds a repeated unit clause trips the assertion of
    trail.rs 235; nothing else panics.  Missing: exactly that case. *)
Theorem add_clause_accepts_partial dbg F s c :
  built dbg F s -> valid_clause c ->
  (exists s', solver_add_clause dbg s c = Ret s') \/
  (solver_add_clause dbg s c = Panic PFull /\ (arena_full s \/ (2 ^ 31 <= N.of_nat (length c))%N)) \/
  (dbg = true /\ (exists l, c = [l] /\ In [l] F) /\ solver_add_clause dbg s c = Panic PDebug).
Proof.
  intros HB Hc. destruct (add_ok dbg _ F s c (PSI_built _ _ _ HB) Hc) as [[E HF]|[(Hd & l & Hl & Hi & E)|(s' & E & _)]].
  - right; left. split; auto. destruct HF as [HF|HF]; [left; apply afull_arena; auto|right]. unfold HEADER_MASK in HF.
    change (2 ^ 31)%N with 2147483648%N. lia.
  - right; right. split; auto. split; eauto.
  - left; eauto.
Qed.
(** Without debug assertions the property holds as stated. *)
Theorem add_clause_accepts_release F s c :
  built false F s -> valid_clause c ->
  (exists s', solver_add_clause false s c = Ret s') \/
  (solver_add_clause false s c = Panic PFull /\ (arena_full s \/ (2 ^ 31 <= N.of_nat (length c))%N)).
Proof. intros HB Hc. destruct (add_clause_accepts_partial _ _ _ _ HB Hc) as [H|[H|[H _]]]; auto; discriminate. Qed.
(** The same after any number of searches, for clauses that are [watchable]. *)
Theorem add_clause_late_accepts select dbg F s c :
  select_ok (fun _ _ => True) select -> reach select dbg F s -> valid_clause c -> watchable s c ->
  (exists s', solver_add_clause dbg s c = Ret s') \/
  (solver_add_clause dbg s c = Panic PFull /\ (arena_full s \/ (2 ^ 31 <= N.of_nat (length c))%N)).
Proof.
  intros Hs HR Hc Hw. destruct (late_add_ok dbg F s c (MI_reach _ _ _ _ Hs HR) Hc Hw) as [[E HF]|(s' & E & _)]; [right|left; eauto].
  split; auto. destruct HF as [HF|HF]; [left; apply afull_arena; auto|right]. unfold HEADER_MASK in HF.
  change (2 ^ 31)%N with 2147483648%N. lia.
Qed.
Theorem add_clause_accepts_refuted : exists F s c, built true F s /\ valid_clause c /\ solver_add_clause true s c = Panic PDebug.
Proof.
  exists [[1]]%N, (added true [[1]]%N), [1]%N. split; [apply built_added; vm_compute; reflexivity|]. split; [intros l [<-|[]]; reflexivity|].
  vm_compute. reflexivity.
Qed.
Example add_clause_accepts_example : exists s', solver_add_clause true (added true php4) [7; 7; 6; 100]%N = Ret s' /\
  built true php4 (added true php4).
Proof. eexists. split; [apply (ret_from solver_new); vm_compute; reflexivity|apply php4_built]. Qed.

(** ** C09-C11: the logged proof *)
Lemma log_inv select dbg F s steps : select_ok (fun _ _ => True) select -> reach select dbg F s -> proof_log s = Some steps ->
  exists L, drat_run F steps L.
Proof.
  intros Hs HR E. destruct (MI_reach _ _ _ _ Hs HR) as [(K & L & st & es & HK & H) _].
  unfold proof_log in E. destruct (cx_proof (so_ctx s)) as [p|] eqn:Ep; [|discriminate]. cbn [option_map] in E. inversion E as [E1].
  pose proof (s_log _ _ _ _ _ _ _ _ H p Ep) as G. change (map to_pstep p = st) in G. exists L. rewrite G. apply H.
Qed.

(** C09: every addition is RUP with respect to the input clauses and the
    additions not yet deleted. *)
Theorem proof_additions_rup select dbg F s steps pre c post :
  select_ok (fun _ _ => True) select -> reach select dbg F s -> proof_log s = Some steps ->
  steps = pre ++ Add c :: post ->
  exists L, drat_run F pre L /\ RUP (L ++ F) c.
Proof.
  intros Hs HR E ->. destruct (log_inv _ _ _ _ _ Hs HR E) as [L D].
  change (Add c :: post) with ([Add c] ++ post) in D. rewrite app_assoc in D. destruct (drat_prefix _ _ _ _ D) as [L1 D1].
  apply drat_snoc in D1 as (L2 & -> & D2 & R). eauto.
Qed.
Example proof_additions_rup_example : exists steps, proof_log (snd (outcome true php4)) = Some steps /\
  steps = [Add [14; 7; 1]; Add [18; 1]; Add [2; 19]; Add [1]; Add [10]]%N.
Proof. eexists. split; [vm_compute; reflexivity|reflexivity]. Qed.

(** C11: every deletion is of a clause added and not yet deleted; up to literal
    order no clause is deleted more often than it was added.  (So an input
    clause is never deleted: deletions only consume logged additions.) *)
Theorem proof_deletions_sound select dbg F s steps pre c post :
  select_ok (fun _ _ => True) select -> reach select dbg F s -> proof_log s = Some steps ->
  steps = pre ++ Del c :: post ->
  count_deleted c pre < count_added c pre /\
  exists L1 c' L2, drat_run F pre (L1 ++ c' :: L2) /\ Permutation c c'.
Proof.
  intros Hs HR E ->. destruct (log_inv _ _ _ _ _ Hs HR E) as [L D].
  change (Del c :: post) with ([Del c] ++ post) in D. rewrite app_assoc in D. destruct (drat_prefix _ _ _ _ D) as [L1 D1].
  apply drat_snoc in D1 as (M1 & c' & M2 & -> & D2 & P). split; [|eauto].
  pose proof (drat_counts _ _ _ D2 c) as C. rewrite filter_app, app_length in C. cbn [filter] in C.
  rewrite (proj2 (same_clause_perm c c') P) in C. cbn [length] in C. lia.
Qed.

(** C10: the proof logged by the first [solve] refutes the formula. *)
Theorem proof_refutes select dbg F fuel s s' :
  select_ok (fun _ _ => True) select -> built dbg F s -> proof_log s <> None ->
  solve select dbg fuel s = Ret (false, s') ->
  exists steps L, proof_log s' = Some steps /\ drat_run F steps L /\ up_conflict (L ++ F) [].
Proof.
  intros Hs HB HP E. pose proof (PSI_built _ _ _ HB) as [(es & H) Hq Hd Hu Hus Hsc Hcf].
  assert (HK : dbg = true -> Kof dbg s = 0) by (intros ->; reflexivity).
  destruct (solve_ok select _ dbg _ (cnf_vars F) F Hs HK fuel [] [] es s H) as [E1|[E1|(b & s1 & L' & steps' & es' & E1 & H1 & _ & Hpr & R & UC)]];
    rewrite E in E1; try discriminate. inversion E1; subst b s1.
  unfold proof_log in *. destruct (cx_proof (so_ctx s')) as [p|] eqn:Ep.
  - exists steps', L'. cbn [option_map]. split; [f_equal; apply (s_log _ _ _ _ _ _ _ _ H1 p Ep)|]. split; [apply H1|]. apply UC; auto.
  - rewrite (proj2 Hpr eq_refl) in HP. cbn in HP. congruence.
Qed.
Example proof_refutes_example : built true php4 (added true php4) /\ proof_log (added true php4) <> None /\
  exists s', solve select_sort true 1000 (added true php4) = Ret (false, s').
Proof. split; [apply php4_built|]. split; [vm_compute; discriminate|]. eexists. apply php4_solve. Qed.

(** For later calls of [solve] (which may delete clauses although the formula
    is already refuted): some prefix of the proof refutes the formula. *)
Theorem proof_refutes_again select dbg F fuel s s' steps :
  select_ok (fun _ _ => True) select -> reach select dbg F s ->
  solve select dbg fuel s = Ret (false, s') -> proof_log s' = Some steps ->
  exists pre post L, steps = pre ++ post /\ drat_run F pre L /\ up_conflict (L ++ F) [].
Proof.
  intros Hs HR E EP. destruct (solve_inv _ _ _ _ _ _ _ Hs HR E) as (K & L & st & es & H & R).
  destruct (s_us _ _ _ _ _ _ _ _ H R) as (a & b & L1 & Est & D & U). exists a, b, L1. split; auto.
  unfold proof_log in EP. destruct (cx_proof (so_ctx s')) as [p|] eqn:Ep; [|discriminate]. inversion EP as [E1].
  pose proof (s_log _ _ _ _ _ _ _ _ H p Ep) as G. change (map to_pstep p = st) in G. congruence.
Qed.

(** A valid proof whose clauses propagate to a conflict refutes the formula:
    what [drat_run] and [up_conflict] mean. *)
Theorem drat_refutation_sound F steps L : drat_run F steps L -> up_conflict (L ++ F) [] -> ~ satisfiable F.
Proof. apply drat_refutes. Qed.
Theorem drat_addition_sound F steps L : drat_run F steps L -> forall v, sat_cnf v F -> sat_cnf v L.
Proof. intros H v Hv. eapply drat_sound; eauto. Qed.

(** ** C12: the empty clause could be logged at the end, the proof would stay
    valid.  Missing: the code never logs it. *)
Theorem proof_ends_empty_partial select dbg F fuel s s' :
  select_ok (fun _ _ => True) select -> built dbg F s -> proof_log s <> None ->
  solve select dbg fuel s = Ret (false, s') ->
  exists steps L, proof_log s' = Some steps /\ drat_run F (steps ++ [Add []]) (L ++ [[]]).
Proof.
  intros Hs HB HP E. destruct (proof_refutes _ _ _ _ _ _ Hs HB HP E) as (steps & L & EP & D & U).
  exists steps, L. split; auto. constructor; auto.
Qed.
(** Indeed false of the code: no empty clause is ever logged for this formula. *)
Theorem proof_ends_empty_refuted :
  exists F s s' steps, built false F s /\ proof_log s = Some [] /\
    solve select_sort false 100 s = Ret (false, s') /\ proof_log s' = Some steps /\ ~ In (Add []) steps.
Proof.
  eexists php4, _, _, _. split; [apply php4_built|]. split; [vm_compute; reflexivity|]. split; [apply (solve_answers (true, solver_new)); vm_compute; reflexivity|].
  split; [vm_compute; reflexivity|]. simpl. intuition discriminate.
Qed.

(** ** C20 *)
Theorem learned_implied select dbg F s steps c :
  select_ok (fun _ _ => True) select -> reach select dbg F s -> proof_log s = Some steps -> In (Add c) steps ->
  forall v, sat_cnf v F -> sat_clause v c.
Proof.
  intros Hs HR E Hi v Hv. apply in_split in Hi as (pre & post & Es).
  destruct (proof_additions_rup _ _ _ _ _ _ _ _ Hs HR E Es) as (L & D & R). eapply RUP_sound; [|exact R].
  intros c' Hc'. apply in_app_or in Hc' as [Hc'|Hc']; [eapply drat_sound; eauto|auto].
Qed.
(** Also without a proof writer: everything stored is implied. *)
Theorem stored_implied select dbg F s c :
  select_ok (fun _ _ => True) select -> reach select dbg F s -> stored_clause s c ->
  forall v, sat_cnf v F -> sat_clause v c.
Proof.
  intros Hs HR HC v Hv. destruct (MI_reach _ _ _ _ Hs HR) as [(K & L & st & es & HK & H) _].
  pose proof (s_pi _ _ _ _ _ _ _ _ H) as HP. pose proof (s_db _ _ _ _ _ _ _ _ H) as HD.
  assert (HL : sat_cnf v (L ++ F)).
  { intros c' Hc'. apply in_app_or in Hc' as [Hc'|Hc']; auto. eapply drat_sound; [apply H|exact Hv|auto]. }
  assert (G : stored (cnf_vars F) es (p_binary (se_prop (so_se s))) c -> sat_clause v c).
  { intro G. destruct (db_stored HD _ c G) as (c' & Hc' & P). destruct (HL c' Hc') as (l & Hl & Sl). exists l. split; auto.
    eapply Permutation_in; [apply Permutation_sym; exact P|auto]. }
  destruct HC as [(r & E & Hne)|[(a & b & -> & bs & E & Hb)|(l & x & -> & Hx & <- & H0)]].
  - apply G. left. destruct (LR_lits_rev _ _ (pi_lr _ _ _ _ HP) r c E) as (h & Hi). eauto.
  - apply G. right. exists a, b. split; auto. unfold bin_containing, vget in E.
    destruct (nth_error (p_binary (se_prop (so_se s))) (cidx a)) as [bs'|] eqn:En; [|discriminate]. inversion E; subst bs'.
    assert (Hlen : cidx a < 2 * cnf_vars F). { rewrite <- (bi_len _ _ (pi_bi _ _ _ _ HP)). apply nth_error_Some. congruence. }
    split; [|unfold bin; rewrite (nth_error_nth _ _ _ En); auto].
    unfold cidx in Hlen. rewrite vidx_div. pose proof (N.div_mod a 2). pose proof (N.mod_lt a 2). lia.
  - exists (s_lit x). split; [left; auto|]. pose proof (up_zero [] x HP HD Hx H0) as U.
    eapply up_sound; [exact HL| |exact U]. intros y [].
Qed.
Example stored_implied_example : stored_clause (snd (outcome true php4)) [1]%N.
Proof. right; right. exists 1%N. eexists. split; [reflexivity|]. vm_compute. split; [left; reflexivity|split; reflexivity]. Qed.

(** Every input clause is kept, up to literal order, as long as the formula is
    not found unsatisfiable. *)
Theorem input_kept select dbg F fuel s s' c :
  select_ok (fun _ _ => True) select -> reach select dbg F s ->
  solve select dbg fuel s = Ret (true, s') -> In c F -> exists c', stored_clause s' c' /\ Permutation c c'.
Proof.
  intros Hs HR E Hc. destruct (solve_inv _ _ _ _ _ _ _ Hs HR E) as (K & L & st & es & H & R & _).
  pose proof (s_pi _ _ _ _ _ _ _ _ H) as HP. pose proof (s_db _ _ _ _ _ _ _ _ H) as HD.
  assert (Hi : In c (L ++ F)) by (apply in_or_app; auto). destruct c as [|a [|b r]].
  - pose proof (db_empty _ _ _ _ _ _ HD Hi). congruence.
  - destruct (db_fact _ _ _ _ _ _ HD a Hi) as [U|(x & Hx & Ex & H0)]; [congruence|]. exists [a]. split; [|apply Permutation_refl].
    right; right. exists a, x. auto.
  - destruct (db_stored_rev HD (cnf_vars F) (a :: b :: r)) as (cl & HS & P); auto; [intros x Hx; eapply (s_var _ _ _ _ _ _ _ _ H); eauto|cbn [length]; lia|].
    exists cl. split; [|apply Permutation_sym; auto]. destruct HS as [(c & h & Hi' & Hne)|(x & y & -> & Hx & Hy)].
    + left. exists c. split; auto. eapply LR_lits; [apply HP|exact Hi'].
    + right; left. exists x, y. split; auto. exists (bin (p_binary (se_prop (so_se s'))) x). split; auto.
      unfold bin_containing, vget, bin. assert (Hlt : cidx x < length (p_binary (se_prop (so_se s')))).
      { rewrite (bi_len _ _ (pi_bi _ _ _ _ HP)). unfold cidx. rewrite vidx_div in Hx. pose proof (N.div_mod x 2). pose proof (N.mod_lt x 2). lia. }
      rewrite (nth_error_nth' _ [] Hlt). reflexivity.
Qed.

Print Assumptions solve_true_model. Print Assumptions solve_true_satisfies. Print Assumptions solve_false_unsat.
Print Assumptions solve_terminates. Print Assumptions solve_terminates_in_bounds. Print Assumptions solve_no_panic.
Print Assumptions step_no_panic. Print Assumptions value_no_panic. Print Assumptions value_total_consistent.
Print Assumptions solve_repeatable. Print Assumptions incremental_refuted. Print Assumptions incremental_after_unsat_partial. Print Assumptions incremental_watchable_partial.
Print Assumptions add_clause_late_accepts.
Print Assumptions add_clause_accepts_partial. Print Assumptions add_clause_accepts_release. Print Assumptions add_clause_accepts_refuted.
Print Assumptions proof_additions_rup. Print Assumptions proof_deletions_sound. Print Assumptions proof_refutes.
Print Assumptions proof_refutes_again. Print Assumptions drat_refutation_sound. Print Assumptions drat_addition_sound.
Print Assumptions proof_ends_empty_partial. Print Assumptions proof_ends_empty_refuted. Print Assumptions learned_implied. Print Assumptions stored_implied. Print Assumptions input_kept.
