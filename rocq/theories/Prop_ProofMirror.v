(** C93: the proof, the stored clauses and the statistics. *)
From Coq Require Import NArith List Bool Arith Lia Permutation Sorted ZifyN ZifyNat ZifyBool.
From Verif Require Import Model_Base Model_Lit Model_PartialAssignment Model_Header Model_Arena Model_Prop
  Model_Heap Model_Vsids Model_Analysis Model_Luby Model_Solver Spec Proof_Base Proof_PA Proof_Lit
  Proof_Long Proof_Trail Proof_PropOps Proof_Backtrack Proof_Inv Proof_Propagate Proof_Gc Proof_Glue Proof_Derive Proof_Analysis Proof_Minimize Proof_Learn
  Proof_DB Proof_Reduce Proof_Solver Proof_Search Proof_Solve Proof_Add
  Drivers_Solver Drivers_Search Proof_Main Proof_Visited Proof_Select Proof_History Examples_Solver Prop_Prop Prop_Analysis Prop_Search Prop_Learn Prop_Memory.
Import ListNotations.

(** ** Specification *)
Definition additions (steps : list pstep) : list (list N) := flat_map (fun s => match s with Add c => [c] | Del _ => [] end) steps.
Definition deletions (steps : list pstep) : list (list N) := flat_map (fun s => match s with Del c => [c] | Add _ => [] end) steps.
(** How often a formula contains a clause, up to the order of literals *)
Definition times (c : list N) (F : list (list N)) : nat := length (filter (same_clause c) F).
Definition of_length (f : nat -> bool) (F : list (list N)) : list (list N) := filter (fun c => f (length c)) F.

(** The steps written so far, if a proof is written *)
Definition proof_so_far (cx : ctx) : option (list pstep) := option_map (map to_pstep) (cx_proof cx).

(** ** Counting *)
Lemma meq_times d A B : meq A B -> times d A = times d B.
Proof.
  intros (A' & P & Q). unfold times. transitivity (length (filter (same_clause d) A')).
  - clear Q. induction P as [|x l0 l1 P IH|x y l0|l0 l1 l2 P1 IH1 P2 IH2]; cbn [filter]; auto; [destruct (same_clause d x)|destruct (same_clause d x), (same_clause d y)|congruence]; cbn [length]; auto.
  - clear P. induction Q as [|x y l0 l1 P Q IH]; auto. cbn [filter]. rewrite (same_clause_r d x y P). destruct (same_clause d y); cbn [length]; auto.
Qed.
Lemma times_filter f d F : (forall c, Permutation d c -> f c = true) -> times d (filter f F) = times d F.
Proof.
  intro H. unfold times. induction F as [|c F IH]; auto. cbn [filter]. destruct (same_clause d c) eqn:E.
  - apply same_clause_perm in E. rewrite (H c E). cbn [filter]. apply same_clause_perm in E. rewrite E. cbn [length]. auto.
  - destruct (f c); cbn [filter]; rewrite ?E; auto.
Qed.
Lemma times_added d steps : count_added d steps = times d (additions steps).
Proof.
  unfold count_added, times, additions. induction steps as [|[c|c] st IH]; auto. cbn [filter flat_map app]. destruct (same_clause d c); cbn [length]; auto.
Qed.
Lemma binof_count x y c : x <> y -> count_occ N.eq_dec (binof x c) y = if same_clause [x; y] c then 1 else 0.
Proof.
  intro Ne. assert (I : same_clause [x; y] c = true <-> c = [x; y] \/ c = [y; x]).
  { rewrite same_clause_perm. split; [intro P; apply Permutation_length_2_inv in P; tauto|]. intros [->| ->]; [auto|apply perm_swap]. }
  destruct (same_clause [x; y] c).
  - destruct (proj1 I eq_refl) as [->| ->]; cbn; rewrite N.eqb_refl; destruct (N.eqb_spec x y); try congruence; cbn; destruct (N.eq_dec y y); congruence.
  - apply count_occ_not_In. rewrite binof_in. intro H. apply I in H. discriminate.
Qed.

Definition live_refs (b : bool) (d : list N) (es : list lent) : list nat := map le_ref (filter (fun e => liveb b e && same_clause d (le_lits e)) es).
Lemma live_refs_ok n es p b d : PI n es p ->
  lists cref (live_refs b d es) (fun r => exists h c, clause_at p r h c /\ lh_redundant h = b /\ Permutation d c) /\ length (live_refs b d es) = times d (live b es).
Proof.
  intro HP. assert (ND : NoDup (map le_ref es)) by apply (LR_nodup _ _ (pi_lr _ _ _ _ HP)). unfold live_refs. split; [split|].
  - clear HP. induction es as [|e es IH]; cbn [filter map] in *; [constructor|]. apply NoDup_cons_iff in ND as [N1 N2]. destruct (_ && _); auto.
    cbn [map]. constructor; auto. intro G. apply N1. apply in_map_iff in G as (x & Ex & Hx). apply filter_In in Hx as [Hx _]. rewrite <- Ex. apply in_map; auto.
  - intro r. rewrite in_map_iff. split.
    + intros ([[r0 h] c] & Er & Hi). apply filter_In in Hi as [Hi He]. unfold le_ref in Er; cbn [fst] in Er; subst r0.
      apply andb_true_iff in He as [He1 He2]. apply same_clause_perm in He2. unfold liveb in He1. apply andb_true_iff in He1 as [L1 L2]. apply Bool.eqb_prop in L2.
      exists h, c. split; auto. apply (clause_at_iff _ es _ _ _ _ HP). split; auto. apply (le_live_ne r h c); auto.
    + intros (h & c & Hc & Hb & Hd). apply (clause_at_iff _ es _ _ _ _ HP) in Hc as [Hi Hc]. exists (r, h, c). split; auto. apply filter_In. split; auto.
      apply andb_true_iff. split; [|apply same_clause_perm; auto]. unfold liveb. apply andb_true_iff. split; [apply (le_live_ne r h c); auto|]. unfold le_hdr; cbn [fst snd]. rewrite Hb. apply Bool.eqb_reflx.
  - clear. unfold times, live. rewrite map_length. induction es as [|e es IH]; auto. cbn [filter]. destruct (liveb b e); cbn [andb map filter]; [|exact IH].
    destruct (same_clause d (le_lits e)); cbn [length]; auto.
Qed.

(** ** C93 *)
(** The clauses added by the proof and not deleted are the learned clauses that are
    stored, each as often as it is stored: long clauses in the clause memory, binary
    clauses in the lists by literal, and unit clauses on the trail at level zero.  In
    addition there are the clauses of the formula.  Literals may be in any order. *)
Theorem proof_matches_clauses select dbg F evs cx se steps :
  select_ok (fun _ _ => True) select -> searched select dbg F evs cx se -> proof_so_far cx = Some steps ->
  let p := se_prop se in
  (forall d, 3 <= length d ->
     (exists C, lists cref C (fun r => exists h c, clause_at p r h c /\ lh_redundant h = true /\ Permutation d c) /\
        length C + count_deleted d steps = count_added d steps) /\
     (exists C, lists cref C (fun r => exists h c, clause_at p r h c /\ lh_redundant h = false /\ Permutation d c) /\ length C = times d F)) /\
  (forall x y, x <> y -> count_occ N.eq_dec (nth (N.to_nat x) (p_binary p) []) y + count_deleted [x; y] steps = count_added [x; y] steps + times [x; y] F) /\
  (forall x, count_deleted [x] steps < count_added [x] steps -> p_unsat p = true \/ exists st, In st (t_steps (p_trail p)) /\ s_lit st = x /\ s_level st = 0).
Proof.
  intros Hs HR EL p. destruct (visited_SI _ _ _ _ _ Hs (searched_visited _ _ _ _ _ _ HR)) as (K & L & steps0 & es & HK & H). pose proof (s_pi _ _ _ _ _ _ _ _ H) as HP. pose proof (s_db _ _ _ _ _ _ _ _ H) as DB. fold p in HP, DB.
  assert (Es : steps0 = steps). { unfold proof_so_far in EL. destruct (cx_proof cx) as [l|] eqn:Ep; [|discriminate]. pose proof (s_log _ _ _ _ _ _ _ _ H l Ep) as G. inversion EL. rewrite <- G. reflexivity. }
  subst steps0. pose proof (drat_counts _ _ _ (s_run _ _ _ _ _ _ _ _ H)) as C. split; [|split].
  - intros d Hd. assert (LF : forall F, times d (filter longb F) = times d F).
    { intro F0. apply times_filter. intros c P. unfold longb. apply Permutation_length in P. lia. }
    split; eexists; (split; [apply (live_refs_ok _ es _ _ d HP)|]); rewrite (proj2 (live_refs_ok _ es _ _ d HP)).
    + rewrite (meq_times d _ _ (db_red _ _ _ _ _ _ DB)), LF. apply C.
    + rewrite (meq_times d _ _ (db_irr _ _ _ _ _ _ DB)), LF. reflexivity.
  - intros x y Ne. pose proof (db_bin _ _ _ _ _ _ DB x) as P. rewrite (Permutation_count_occ N.eq_dec) in P. specialize (P y). unfold bin, cidx in P. rewrite P. clear P.
    rewrite <- C. assert (G : forall F, count_occ N.eq_dec (flat_map (binof x) F) y = times [x; y] F).
    { unfold times. induction F0 as [|c F0 IH]; auto. cbn [flat_map filter]. rewrite count_occ_app, IH, binof_count by auto. destruct (same_clause [x; y] c); reflexivity. }
    rewrite G. unfold times. rewrite filter_app, app_length. lia.
  - intros x Hx. rewrite <- C in Hx. destruct (filter (same_clause [x]) L) as [|c r] eqn:Ef; [cbn in Hx; lia|].
    assert (Q : In c (filter (same_clause [x]) L)) by (rewrite Ef; left; auto). apply filter_In in Q as [Q1 Q2]. apply same_clause_perm, Permutation_length_1_inv in Q2. subst c.
    destruct (db_fact _ _ _ _ _ _ DB x) as [U|(st & S1 & S2 & S3)]; [apply in_or_app; auto|auto|]. right. exists st. auto.
Qed.

(** *** Numbers of proof steps *)
Definition log_adds (l : list proof_step) : nat := length (additions (map to_pstep l)).
Lemma additions_app a b : additions (a ++ b) = additions a ++ additions b.
Proof. apply flat_map_app. Qed.
Lemma deletions_app a b : deletions (a ++ b) = deletions a ++ deletions b.
Proof. apply flat_map_app. Qed.
Lemma additions_del ls : additions (map Del ls) = [].
Proof. induction ls; auto. Qed.
Lemma deletions_del ls : deletions (map Del ls) = ls.
Proof. unfold deletions. induction ls as [|c ls IH]; auto. cbn. f_equal. auto. Qed.

Definition log_ok (cx : ctx) (p : prop) : Prop := forall l, cx_proof cx = Some l ->
  let steps := map to_pstep l in
  Forall (fun c => 3 <= length c) (deletions steps) /\
  (st_conflicts (cx_stats cx) = length (additions steps) \/ st_conflicts (cx_stats cx) = S (length (additions steps)) /\ p_unsat p = true).
Lemma log_ok_same cx p cx' p' : log_ok cx p -> cx_proof cx' = cx_proof cx -> st_conflicts (cx_stats cx') = st_conflicts (cx_stats cx) ->
  (p_unsat p = true -> p_unsat p' = true) -> log_ok cx' p'.
Proof. intros H E1 E2 E3 l El. rewrite E1 in El. destruct (H l El) as [A B]. split; auto. rewrite E2. destruct B as [B|[B1 B2]]; auto. Qed.

Lemma add_unsat dbg s c s' : solver_add_clause dbg s c = Ret s' -> p_unsat (se_prop (so_se s)) = true -> p_unsat (se_prop (so_se s')) = true.
Proof.
  unfold solver_add_clause. set (X := if Nat.ltb _ _ then _ else _). intros E Hu.
  assert (A : forall cx1 se1, X = Ret (cx1, se1) -> p_unsat (se_prop se1) = true).
  { unfold X. intros cx1 se1 E1. destruct (Nat.ltb _ _); [|inversion E1; subst; auto]. unfold search_resize in E1.
    destruct (vsids_resize _ _); try discriminate. cbn [bind] in E1. inversion E1; subst; auto. }
  destruct X as [[cx1 se1]| |]; try discriminate. cbn [bind] in E. specialize (A _ _ eq_refl).
  assert (B : forall o cx2 p2, add_clause_verbatim dbg cx1 (se_prop se1) lh_new_input c = Ret (o, cx2, p2) -> p_unsat p2 = true).
  { intros o cx2 p2. unfold add_clause_verbatim. destruct c as [|a [|b [|d r]]].
    - intro H; inversion H; subst; auto.
    - destruct (pa_is_false _ _) as [f| |]; try discriminate. cbn [bind]. destruct f; [intro H; inversion H; subst; auto|].
      destruct (assign _ _ _) as [p3| |] eqn:Ea; try discriminate. cbn [bind]. intro H; inversion H; subst. unfold assign in Ea.
      destruct (assign_raw _ _ _ _) as [[v t]| |]; try discriminate. cbn [bind] in Ea. inversion Ea; subst; auto.
    - destruct (bin_add _ _ _); try discriminate. cbn [bind]. intro H; inversion H; subst. auto.
    - destruct (long_add_clause _ _ _) as [[oc lg]| |]; try discriminate. cbn [bind]. destruct oc as [rf|]; try discriminate.
      repeat match goal with |- bind ?x _ = _ -> _ => destruct x; try discriminate; cbn [bind] end.
      all: try (destruct (ws_enabled _)); repeat match goal with |- bind ?x _ = _ -> _ => destruct x; try discriminate; cbn [bind] end; intro H; inversion H; subst; auto. }
  destruct (add_clause_verbatim _ _ _ _ _) as [[[o cx2] p2]| |]; try discriminate. cbn [bind] in E. inversion E; subst. cbn [so_state sta_search se_prop].
  apply (B _ _ _ eq_refl).
Qed.
Lemma collect_unsat dbg p p' : prop_collect_garbage dbg p = Ret p' -> p_unsat p' = p_unsat p.
Proof.
  intro E0. unfold prop_collect_garbage in E0. destruct (should_collect_garbage _); [|congruence]. unfold collect_garbage_now in E0.
  destruct (_ <=? _)%N; [|discriminate]. destruct (long_collect _) as [[lg gaps]| |]; try discriminate. cbn [bind] in E0.
  destruct (trail_update_refs _ _); try discriminate. cbn [bind] in E0. destruct (watches_update_refs _ _ _); try discriminate. cbn [bind] in E0.
  inversion E0; subst; auto.
Qed.

Lemma searched_log select dbg F evs cx se : select_ok (fun _ _ => True) select -> searched select dbg F evs cx se -> log_ok cx (se_prop se).
Proof.
  intros Hs H. induction H as [F s H|F evs cx se H IH|F evs cx se p H IH E|F evs cx se cx' se' H IH E|F evs cx se cx' se' H IH E
    |F evs cx se cx1 p1 c cx2 an p2 cb H IH Hu E1 Hd E|F evs cx se cx1 p1 v vs l p2 H IH E1 E2 E3 E4|F evs cx se cx1 p1 c H IH Hu E1 Hd|F evs cx se cx1 p1 vs H IH E1 E2|F evs s c s' H IH Hc Hw E].
  - intros l El. assert (X : forall l, cx_proof (so_ctx s) = Some l -> l = []).
    { clear l El. induction H as [|F s c s' _ IH Hv E|F s _ IH|F s _ IH]; intros l El; cbn in El; try congruence. rewrite (add_proof _ _ _ _ E) in El. auto. }
    rewrite (X _ El). split; [constructor|left]. destruct (built_counters _ _ _ H) as [B _]. unfold counters in B. injection B as B1 B2 B3 B4 B5. exact B3.
  - intros l El. discriminate.
  - apply (log_ok_same _ _ _ _ IH); auto. cbn [with_prop se_prop]. rewrite (collect_unsat _ _ _ E). auto.
  - destruct (visited_SI _ _ _ _ _ Hs (searched_visited _ _ _ _ _ _ H)) as (K & L & st & es & HK & HI).
    destruct (SI_reduce select _ _ _ _ _ _ _ _ _ Hs HI) as (cx1 & se1 & L1 & es1 & lls & E1 & H1 & Ecx & Eu & _ & _ & _ & a' & D & _ & R). rewrite E in E1. inversion E1; subst cx' se'.
    intros l El. rewrite Ecx in El |- *. cbn [del_ctx cx_proof bump_reductions cx_with] in El. destruct (cx_proof cx) as [l0|] eqn:Ep; inversion El; subst l.
    destruct (IH l0 Ep) as [A B]. cbv zeta. rewrite map_app, map_map. cbn [to_pstep]. change (map (fun x => Del x) lls) with (map Del lls). rewrite deletions_app, additions_app, deletions_del, additions_del, app_nil_r.
    split; [apply Forall_app; split; auto|rewrite Eu; exact B].
    apply Forall_forall. intros c Hc. pose proof (rd_el _ _ _ _ _ _ _ _ _ _ R) as RE.
    assert (Q : exists r h, In (r, h, c) es /\ eligible (t_steps (p_trail (se_prop se))) (r, h, c)).
    { clear -RE Hc. induction RE as [|r d D lls (h & X) RE IHR]; [contradiction|]. destruct Hc as [->|Hc]; [eauto|auto]. }
    destruct Q as (r & h & He & EL & _).
    apply (pi_ll _ _ _ _ (s_pi _ _ _ _ _ _ _ _ HI) _ _ _ He). apply (le_live_ne r h c). exact EL.
  - destruct (visited_SI _ _ _ _ _ Hs (searched_visited _ _ _ _ _ _ H)) as (K & L & st & es & HK & HI).
    destruct (SI_restart dbg _ _ _ _ _ _ _ _ HI) as (cx1 & se1 & E1 & H1 & Ecx & Eu & _). rewrite E in E1. inversion E1; subst cx' se'.
    apply (log_ok_same _ _ _ _ IH); [rewrite Ecx; reflexivity..|congruence].
  - destruct (visited_SI _ _ _ _ _ Hs (searched_visited _ _ _ _ _ _ H)) as (K & L & st & es & HK & HI).
    destruct (SI_propagate dbg _ _ _ _ _ _ _ _ HI) as (cx3 & p3 & es3 & r3 & E3 & H3 & PX & _ & HR).
    rewrite E1 in E3. inversion E3; subst cx3 p3 r3. destruct HR as [HC Ecx]. subst cx1.
    assert (H2 : SI K (cnf_vars F) F L st es3 (bump_conflicts cx) (mkSearch p1 (se_analysis se) (se_vsids se) (se_phases se))).
    { eapply SI_ctx; [exact H3|..]; try reflexivity. apply H3. }
    destruct (SI_analyze dbg _ _ _ _ _ _ _ _ c H2 HC) as [[E4 _]|R]; [cbn [se_prop]; lia|cbn [se_analysis se_prop se_vsids se_phases] in E4; unfold search_cb in E; rewrite E in E4; discriminate|].
    destruct R as (cx5 & an5 & p5 & cb5 & es5 & cl & level & target & r5 & a & E5 & H5 & _ & _ & _ & _ & (h & Ecx) & _).
    cbn [se_analysis se_prop se_vsids se_phases] in E5; unfold search_cb in E; rewrite E in E5. inversion E5; subst cx2 an p2 cb.
    intros l El. rewrite Ecx in El |- *. unfold cx_log in El. cbn [cx_proof bump_conflicts cx_with] in El. destruct (cx_proof cx) as [l0|] eqn:Ep; inversion El; subst l.
    destruct (IH l0 Ep) as [A B]. cbv zeta. rewrite map_app, deletions_app, additions_app. cbn [map to_pstep]. unfold additions at 2 4, deletions at 2. cbn [flat_map app]. rewrite app_nil_r, app_length. cbn [length].
    split; auto. left. destruct B as [B|[_ B]]; [|congruence]. cbn [cx_stats].
    assert (Ec : st_conflicts (st_add (cx_stats (bump_conflicts cx)) h cl) = st_conflicts (cx_stats cx) + 1).
    { pose proof (st_add_counters (cx_stats (bump_conflicts cx)) h cl) as Q. unfold counters in Q. injection Q as Q1 Q2 Q3 Q4 Q5. exact Q3. }
    cbn [bump_conflicts cx_with cx_stats] in Ec. cbn [bump_conflicts cx_with cx_stats]. rewrite Ec. lia.
  - destruct (visited_SI _ _ _ _ _ Hs (searched_visited _ _ _ _ _ _ H)) as (K & L & st & es & HK & HI).
    destruct (SI_propagate dbg _ _ _ _ _ _ _ _ HI) as (cx3 & p3 & es3 & r3 & E5 & H3 & PX & _ & HR).
    rewrite E1 in E5. inversion E5; subst cx3 p3 r3. destruct HR as [HC Ecx].
    apply (log_ok_same _ _ _ _ IH); [rewrite Ecx; reflexivity..|]. cbn [se_prop]. destruct PX as (_ & _ & PX & _). intro Q.
    unfold assign_decision, assign in E4. destruct (assign_raw _ _ _ _) as [[v0 t0]| |]; try discriminate. cbn [bind] in E4. inversion E4; subst; cbn; congruence.
  - destruct (visited_SI _ _ _ _ _ Hs (searched_visited _ _ _ _ _ _ H)) as (K & L & st & es & HK & HI).
    destruct (SI_propagate dbg _ _ _ _ _ _ _ _ HI) as (cx3 & p3 & es3 & r3 & E5 & H3 & PX & _ & HR).
    rewrite E1 in E5. inversion E5; subst cx3 p3 r3. destruct HR as [HC Ecx]. subst cx1.
    intros l El. destruct (IH l El) as [A B]. split; auto. right. cbn [with_prop se_prop p_set_unsat p_unsat bump_conflicts cx_with cx_stats st_conflicts]. destruct B as [B|[_ B]]; [|congruence]. split; [lia|reflexivity].
  - destruct (visited_SI _ _ _ _ _ Hs (searched_visited _ _ _ _ _ _ H)) as (K & L & st & es & HK & HI).
    destruct (SI_propagate dbg _ _ _ _ _ _ _ _ HI) as (cx3 & p3 & es3 & r3 & E5 & H3 & PX & _ & HR).
    rewrite E1 in E5. inversion E5; subst cx3 p3 r3. destruct HR as [HC Ecx].
    apply (log_ok_same _ _ _ _ IH); [rewrite Ecx; reflexivity..|]. cbn [se_prop]. destruct PX as (_ & _ & PX & _). congruence.
  - apply (log_ok_same _ _ _ _ IH); [apply (add_proof _ _ _ _ E)| |apply (add_unsat _ _ _ _ E)].
    destruct (add_counters _ _ _ _ E) as [Q _]. unfold counters in Q. injection Q as Q1 Q2 Q3 Q4 Q5. exact Q3.
Qed.

Lemma drat_long F steps L : drat_run F steps L -> Forall (fun c => 3 <= length c) (deletions steps) ->
  (forall f, (forall k, 3 <= k -> f k = false) -> length (of_length f L) = length (of_length f (additions steps))) /\
  length (of_length (Nat.leb 3) L) + length (deletions steps) = length (of_length (Nat.leb 3) (additions steps)).
Proof.
  unfold of_length. induction 1 as [|steps L c _ IH _|steps L1 c' L2 c _ IH P]; intro HD; [split; reflexivity|..].
  - rewrite deletions_app in HD |- *. unfold deletions at 2 in HD. unfold deletions at 2. cbn [flat_map app] in *. rewrite app_nil_r in *. specialize (IH HD) as [I1 I2].
    rewrite additions_app. unfold additions at 2 4. cbn [flat_map app]. split; [intros f Hf|]; rewrite !filter_app, !app_length; [rewrite (I1 f Hf); reflexivity|].
    cbn [filter]. destruct (3 <=? length c); cbn [length]; lia.
  - rewrite deletions_app in HD |- *. unfold deletions at 2 in HD. unfold deletions at 2. cbn [flat_map app] in *. apply Forall_app in HD as [HD HC]. inversion HC; subst. specialize (IH HD) as [I1 I2].
    rewrite additions_app. unfold additions at 2 4. cbn [flat_map app]. rewrite app_nil_r. apply Permutation_length in P. split.
    + intros f Hf. rewrite <- (I1 f Hf), !filter_app. cbn [filter]. rewrite Hf by lia. reflexivity.
    + rewrite app_length. cbn [length]. rewrite filter_app, app_length in *. cbn [filter] in I2. destruct (Nat.leb_spec 3 (length c')); [|lia]. cbn [length] in I2. lia.
Qed.

(** Every conflict adds one clause to the proof, except the last one of a formula that is
    unsatisfiable.  Deletions are of long clauses: there is one for each long clause that
    was added and is not stored any more.  The number of binary clauses in the statistics
    is the number of those added, by the formula and by the proof. *)
Theorem proof_size select dbg F evs cx se steps :
  select_ok (fun _ _ => True) select -> searched select dbg F evs cx se -> proof_so_far cx = Some steps ->
  let c := cx_stats cx in
  (st_conflicts c = length (additions steps) \/
   st_conflicts c = S (length (additions steps)) /\ p_unsat (se_prop se) = true /\ ~ satisfiable F) /\
  Forall (fun d => 3 <= length d) (deletions steps) /\
  st_redundant c + length (deletions steps) = length (of_length (Nat.leb 3) (additions steps)) /\
  st_irredundant c = length (of_length (Nat.leb 3) F) /\
  st_binary c = length (of_length (Nat.eqb 2) (additions steps)) + length (of_length (Nat.eqb 2) F).
Proof.
  intros Hs HS EL. destruct (visited_SI _ _ _ _ _ Hs (searched_visited _ _ _ _ _ _ HS)) as (K & L & steps0 & es & HK & H). pose proof (s_db _ _ _ _ _ _ _ _ H) as DB. destruct (s_st _ _ _ _ _ _ _ _ H) as [S1 S2 S3 _].
  unfold proof_so_far in EL. destruct (cx_proof cx) as [l|] eqn:Ep; [|discriminate]. pose proof (s_log _ _ _ _ _ _ _ _ H l Ep) as G.
  change (map to_pstep l = steps0) in G. cbn [option_map] in EL. injection EL as EL. rewrite G in EL. subst steps0.
  destruct (searched_log _ _ _ _ _ _ Hs HS l Ep) as [A B]. rewrite G in A, B. destruct (drat_long _ _ _ (s_run _ _ _ _ _ _ _ _ H) A) as [D1 D2].
  cbv zeta. split; [|split; [exact A|split; [|split]]].
  - destruct B as [B|[B1 B2]]; [auto|right]. split; [auto|]. split; [auto|]. eapply refuted_unsat, (s_us _ _ _ _ _ _ _ _ H). exact B2.
  - rewrite S1, (meq_length _ _ (db_red _ _ _ _ _ _ DB)). exact D2.
  - rewrite S2, (meq_length _ _ (db_irr _ _ _ _ _ _ DB)). reflexivity.
  - rewrite S3, filter_app, app_length. rewrite <- (D1 (Nat.eqb 2)) by (intros k Hk; lia). unfold of_length, binb. f_equal; f_equal; apply filter_ext; intro c; apply Nat.eqb_sym.
Qed.

(** ** Example *)
Lemma searched_reduces dbg F k : forall evs x y, searched select_sort dbg F evs (fst x) (snd x) -> reduces k x = Ret y -> exists evs', searched select_sort dbg F evs' (fst y) (snd y).
Proof.
  induction k as [|k IH]; intros evs x y HV E; cbn [reduces] in E; [inversion E; subst; eauto|].
  destruct (reduce select_sort (fst x) (snd x)) as [[c s]| |] eqn:E1; cbn [bind] in E; try discriminate. eapply IH; [|exact E]. cbn [fst snd]. eapply sea_reduce; eauto.
Qed.
Lemma searched_cleared F s : reach select_sort true F s ->
  let x := from_res (so_ctx s, sta_search (so_state s)) (cleared s) in exists evs, searched select_sort true F evs (fst x) (snd x).
Proof.
  intros HR. destruct (searched_reach _ _ _ _ HR) as [evs H]. cbv zeta. destruct (cleared s) as [y| |] eqn:E; cbn [from_res fst snd]; [|eauto..]. unfold cleared in E.
  destruct (restart true _ _) as [[c1 s1]| |] eqn:E1; cbn [bind] in E; try discriminate. refine (searched_reduces _ _ _ _ (c1, s1) _ _ E). cbn [fst snd]. eapply sea_restart; eauto.
Qed.
Lemma state6_searched : exists evs, searched select_sort true php6 evs (fst state6) (snd state6).
Proof. exact (searched_cleared php6 start6 start6_reach). Qed.
(** Fifty steps on a pigeon hole formula with 30 variables, then a restart and eight
    reductions: of 19 learned clauses 14 are deleted. *)
Example proof_size_example : exists evs steps, searched select_sort true php6 evs (fst state6) (snd state6) /\ proof_so_far (fst state6) = Some steps /\
  (length (additions steps), length (deletions steps), times [0; 10]%N php6) = (19, 14, 1) /\
  (let c := cx_stats (fst state6) in (st_conflicts c, st_redundant c, st_irredundant c, st_binary c)) = (19, 5, 6, 75).
Proof.
  destruct state6_searched as [evs H]. exists evs.
  assert (X : match proof_so_far (fst state6) with Some st => (length (additions st), length (deletions st), times [0; 10]%N php6) = (19, 14, 1) | None => False end) by (vm_compute; reflexivity).
  destruct (proof_so_far (fst state6)) as [st|]; [|contradiction]. exists st. split; [exact H|]. split; [reflexivity|]. split; [exact X|]. vm_compute. reflexivity.
Qed.
(** At the end of the run on the formula for four pigeons there was one conflict more than
    additions. *)
Example proof_size_unsat : reach select_sort true php4 (snd (outcome true php4)) /\
  option_map (fun st => length (additions st)) (proof_log (snd (outcome true php4))) = Some 5 /\ st_conflicts (cx_stats (so_ctx (snd (outcome true php4)))) = 6.
Proof. split; [|vm_compute; auto]. eapply reach_solve; [apply reach_built, (php4_built true)|apply (php4_solve true)]. Qed.

Print Assumptions proof_matches_clauses. Print Assumptions proof_size.
