(** One step of the search loop. *)
From Coq Require Import NArith List Bool Arith Lia Permutation Sorted ZifyN ZifyNat ZifyBool.
From Verif Require Import Model_Base Model_Lit Model_PartialAssignment Model_Header Model_Arena Model_Prop
  Model_Heap Model_Vsids Model_Analysis Model_Luby Model_Solver Spec Drivers_Arena Proof_Base Proof_PA Proof_Lit Proof_Header Proof_Arena
  Proof_ArenaHist Proof_Long Proof_Trail Proof_Heap Proof_Backtrack Proof_Inv Proof_Propagate Proof_PropOps Proof_Gc Proof_Glue
  Proof_Analysis Proof_Minimize Proof_Learn Proof_DB Proof_Reduce Proof_Size Proof_Solver.
Import ListNotations.

Definition levs (se : search) : list nat := map s_level (se_ss se).

(** Along the trail the level stays or rises by one. *)
Fixpoint stairs (prev : nat) (lv : list nat) : Prop :=
  match lv with [] => True | x :: r => (x = prev \/ x = S prev) /\ stairs x r end.
Lemma lvl_S ds i : StronglySorted lt ds -> lvl ds i <= lvl ds (S i) <= S (lvl ds i).
Proof.
  intro S. split; [apply lvl_mono; lia|]. unfold lvl. induction S as [|d r S IH F]; cbn [filter]; [cbn; lia|].
  destruct (Nat.leb_spec d i), (Nat.leb_spec d (Datatypes.S i)); cbn [length]; try lia.
  fold (lvl r i) (lvl r (Datatypes.S i)). rewrite Forall_forall in F.
  rewrite !lvl_none; [lia|intros y Hy; specialize (F y Hy); lia|intros y Hy; specialize (F y Hy); lia].
Qed.
Lemma stairs_lvl ds : StronglySorted lt ds -> forall l i prev, (forall j x, nth_error l j = Some x -> x = lvl ds (i + j)) ->
  prev <= lvl ds i <= S prev -> stairs prev l.
Proof.
  intros S. induction l as [|x l IH]; intros i prev H P; cbn [stairs]; auto.
  pose proof (H 0 x eq_refl) as E. rewrite Nat.add_0_r in E. split; [lia|]. apply (IH (Datatypes.S i)).
  - intros j y Hy. rewrite (H (Datatypes.S j) y Hy). f_equal. lia.
  - rewrite E. apply lvl_S; auto.
Qed.
Lemma TR_stairs n t : TR n t -> stairs 0 (map s_level (t_steps t)).
Proof.
  intro H. apply (stairs_lvl (tl (t_decisions t)) (tr_sort _ _ H) _ 0).
  - intros j x E. rewrite nth_error_map in E. destruct (nth_error (t_steps t) j) as [s|] eqn:Es; inversion E; subst. apply (tr_lev _ _ H _ _ Es).
  - split; [lia|]. unfold lvl. pose proof (tr_sort _ _ H) as S. destruct S as [|d r S F]; cbn [filter]; [cbn; lia|].
    assert (Z : filter (fun d => d <=? 0) r = []).
    { rewrite Forall_forall in F. clear S. induction r as [|y r IH]; auto. cbn [filter]. pose proof (F y (or_introl eq_refl)). destruct (Nat.leb_spec y 0); [lia|]. apply IH. intros z Hz. apply F. right; auto. }
    destruct (d <=? 0); cbn [length]; rewrite Z; cbn; lia.
Qed.

(** The levels of the trail grow in the lexicographic sense. *)
Definition grow (B : nat) (lv lv' : list nat) : Prop :=
  exists ext, length (lv ++ ext) <= B /\ length lv' <= B /\ stairs 0 (lv ++ ext) /\ stairs 0 lv' /\
    ((exists k, lv' = (lv ++ ext) ++ [k]) \/
     (exists target k, lv' = firstn target (lv ++ ext) ++ [k] /\ (forall x, In x (skipn target (lv ++ ext)) -> k < x))).

Lemma sorted_len ds m : StronglySorted lt ds -> (forall d, In d ds -> d < m) -> length ds <= m.
Proof.
  intros S H. rewrite <- (seq_length m 0). apply NoDup_incl_length.
  - clear H. induction S as [|x r S IH F]; constructor; auto. rewrite Forall_forall in F. intro Hi. specialize (F _ Hi). lia.
  - intros d Hd. apply in_seq. specialize (H _ Hd). lia.
Qed.
Lemma dl_le n t : TR n t -> decision_level t <= length (t_steps t).
Proof.
  intro H. rewrite (tr_dl n t H). apply sorted_len; [apply H|]. intros d Hd. apply (tr_ds _ _ H d Hd).
Qed.
Lemma SI_len K n F L steps es cx se : SI K n F L steps es cx se -> length (se_ss se) <= K + n.
Proof. intro H. eapply trail_bound; [apply (s_pi _ _ _ _ _ _ _ _ H)|apply H]. Qed.
Lemma SI_stairs K n F L steps es cx se : SI K n F L steps es cx se -> stairs 0 (levs se).
Proof. intro H. apply (TR_stairs n). apply (pi_tr _ _ _ _ (s_pi _ _ _ _ _ _ _ _ H)). Qed.

Definition all_assigned (n : nat) (ss : list step) : Prop := forall l, vidx l < n -> In l (slits ss) \/ In (neg l) (slits ss).

Record step_out (K n : nat) (F L : list (list N)) (steps : list pstep) (cx : ctx) (se : search)
    (r : option bool) (cx' : ctx) (se' : search) (L' : list (list N)) (steps' : list pstep) (es' : list lent) : Prop := {
  so_si : SI K n F L' steps' es' cx' se';
  so_steps : exists st, steps' = steps ++ st;
  so_cf : st_conflicts (cx_stats cx) <= st_conflicts (cx_stats cx') <= S (st_conflicts (cx_stats cx));
  so_rs : st_restarts (cx_stats cx') = st_restarts (cx_stats cx);
  so_prf : cx_proof cx = None <-> cx_proof cx' = None;
  so_res : match r with
    | Some true => p_unsat (se_prop se') = false /\ t_propagated (p_trail (se_prop se')) = length (se_ss se') /\ all_assigned n (se_ss se')
    | Some false => p_unsat (se_prop se') = true /\
        (p_unsat (se_prop se) = true /\ L' = L /\ steps' = steps \/ p_unsat (se_prop se) = false /\ up_conflict (L' ++ F) [])
    | None => p_unsat (se_prop se) = false /\ p_unsat (se_prop se') = false /\ grow (K + n) (levs se) (levs se')
    end }.

Lemma search_step_ok dbg K n F L steps es cx se : SI K n F L steps es cx se ->
  (search_step dbg cx se = Panic PFull /\ afull (p_long (se_prop se))) \/
  exists r cx' se' L' steps' es', search_step dbg cx se = Ret (r, cx', se') /\
    step_out K n F L steps cx se r cx' se' L' steps' es'.
Proof.
  intro H. unfold search_step. destruct (p_unsat (se_prop se)) eqn:Eu.
  { right. exists (Some false), cx, se, L, steps, es. split; auto. constructor; auto; [|tauto]. exists []. rewrite app_nil_r; auto. }
  destruct (SI_gc dbg _ _ _ _ _ _ _ _ H) as [[E HF]|(p0 & es0 & f & E & H0 & Es0 & Ed0 & Eq0 & Eu0 & _)]; rewrite E; [left; auto|]. cbn [bind].
  destruct (SI_propagate dbg _ _ _ _ _ _ _ _ H0) as (cx1 & p1 & es1 & r & E1 & H1 & HX & Hq & HR). cbn [se_prop se_analysis se_vsids se_phases] in *.
  rewrite E1. cbn [bind]. pose proof HX as ((ext & Ex & _) & Ed & Eu1 & _).
  set (se1 := mkSearch p1 (se_analysis se) (se_vsids se) (se_phases se)) in *.
  assert (Elv : levs se1 = levs se ++ map s_level ext).
  { unfold levs, se1; cbn [se_prop]. rewrite Ex, map_app, Es0, map_map. f_equal. apply map_ext. apply gc_step_level. }
  pose proof (SI_len _ _ _ _ _ _ _ _ H1) as HB1.
  assert (HB2 : length (levs se1) <= K + n) by (unfold levs; rewrite map_length; auto).
  pose proof (SI_stairs _ _ _ _ _ _ _ _ H1) as HB3.
  destruct r as [c|].
  - destruct HR as [Hc ->]. set (cx2 := bump_conflicts cx).
    assert (H2 : SI K n F L steps es1 cx2 se1). { eapply SI_ctx; [exact H1|..]; try reflexivity. apply H1. }
    destruct (Nat.eqb_spec (decision_level (p_trail p1)) 0) as [Z|Z].
    + right. exists (Some false), cx2. eexists _, L, steps, es1. split; [reflexivity|].
      assert (UC : up_conflict (L ++ F) []).
      { eapply conf_zero; [apply (s_pi _ _ _ _ _ _ _ _ H2)|apply (s_db _ _ _ _ _ _ _ _ H2)|exact Hc|exact Z]. }
      constructor; auto.
      * constructor; cbn [se_prop se_analysis se_vsids se_phases p_set_unsat p_trail p_binary p_values p_long p_watches]; try apply H2.
        -- pose proof (s_pi _ _ _ _ _ _ _ _ H2) as HP. constructor; cbn [p_set_unsat p_trail p_binary p_values p_long p_watches]; apply HP.
        -- cbn [p_unsat p_set_unsat]. eapply DBR_us; apply H2.
        -- intros _. eapply refuted_now; eauto. apply H2.
      * exists []. rewrite app_nil_r; auto.
      * unfold cx2, bump_conflicts, cx_with; cbn [cx_stats st_conflicts]. lia.
      * reflexivity.
    + destruct (SI_analyze dbg _ _ _ _ _ _ _ se1 c H2 Hc) as [[E2 HF]|R]; [cbn [se_prop se1]; lia|unfold cx2 in *; cbn [se_analysis se_prop se_vsids se_phases se1] in E2; rewrite E2; left; split; [reflexivity|]|].
      { unfold afull in *. cbn [se_prop se1] in HF. apply prop_collect_size in E. apply propagate_size in E1. lia. }
      destruct R as (cx3 & an' & p' & cb' & es' & cl & level & target & r & a & E2 & H3 & Hlev & Htg & Ess & Eus & (h & Ecx) & Eph).
      cbn [se_analysis se_prop se_vsids se_phases se1] in E2. rewrite E2. cbn [bind]. right.
      exists None, cx3. eexists _, _, _, es'. split; [reflexivity|]. constructor; auto; cbn [se_prop].
      * exact H3.
      * eexists; reflexivity.
      * rewrite Ecx. cbn [cx_stats]. rewrite st_add_conflicts. unfold cx2, bump_conflicts, cx_with; cbn [cx_stats st_conflicts]. lia.
      * rewrite Ecx. cbn [cx_stats]. rewrite st_add_restarts. reflexivity.
      * rewrite Ecx. cbn [cx_proof cx_log]. unfold cx2, bump_conflicts, cx_with; cbn [cx_proof]. destruct (cx_proof cx); split; congruence.
      * split; auto. split; [rewrite Eus; cbn [se_prop se1]; congruence|].
        exists (map s_level ext). rewrite <- Elv. split; auto. split; [unfold levs; rewrite map_length; apply (SI_len _ _ _ _ _ _ _ _ H3)|]. split; [apply HB3|]. split; [apply (SI_stairs _ _ _ _ _ _ _ _ H3)|].
        right. exists target, level. split.
        -- unfold levs at 1. cbn [se_prop]. rewrite Ess, map_app, <- firstn_map. reflexivity.
        -- intros x Hx. unfold levs in Hx. rewrite skipn_map in Hx. apply in_map_iff in Hx as (s & <- & Hs).
           apply In_nth_error in Hs as [i Hs]. rewrite nth_error_skipn in Hs.
           pose proof (pi_tr _ _ _ _ (s_pi _ _ _ _ _ _ _ _ H2)) as HT.
           pose proof (back_level n _ level target HT Htg _ _ Hs). lia.
  - destruct HR as [HQ ->]. 
    destruct (pop_decision_ok n (p_values p1) (slits (t_steps (p_trail p1))) (se_vsids se) (se_phases se)) as (o & vs' & E2 & HC & _ & _ & _ & HO).
    { apply (s_pi _ _ _ _ _ _ _ _ H1). } { apply (s_cb _ _ _ _ _ _ _ _ H1). } { apply (s_cov _ _ _ _ _ _ _ _ H1). }
    rewrite E2. cbn [bind]. right. destruct o as [v|].
    + destruct HO as (Hv & Nv & Hcov & _). set (cx2 := bump_decisions (prop_stats cx p0 p1)).
      assert (H2 : SI K n F L steps es1 cx2 se1). { eapply SI_ctx; [exact H1|..]; try reflexivity. apply H1. }
      destruct (SI_decide dbg _ _ _ _ _ _ _ _ vs' v H2 HQ Hv Nv HC Hcov) as (l & p2 & El & _ & Evl & E3 & H3 & Ess & Eus).
      cbn [se_prop se_phases se1] in El, E3. rewrite El. cbn [bind]. rewrite E3. cbn [bind].
      exists None, cx2. eexists _, L, steps, es1. split; [reflexivity|]. constructor; [exact H3|exists []; rewrite app_nil_r; auto|..]; auto; [reflexivity|].
      * cbn [se_prop]. split; auto. split; [rewrite Eus; cbn [se_prop se1]; congruence|].
        exists (map s_level ext). rewrite <- Elv. split; auto. split; [unfold levs; rewrite map_length; apply (SI_len _ _ _ _ _ _ _ _ H3)|]. split; [apply HB3|]. split; [apply (SI_stairs _ _ _ _ _ _ _ _ H3)|].
        left. eexists.
        unfold levs at 1. cbn [se_prop]. rewrite Ess, map_app. reflexivity.
    + destruct HO as (Hcov & Hall). exists (Some true). eexists _, _, L, steps, es1. split; [reflexivity|]. constructor; auto.
      * constructor; cbn [se_prop se_analysis se_vsids se_phases]; auto; apply H1.
      * exists []. rewrite app_nil_r; auto.
      * reflexivity.
      * cbn [se_prop]. split; [congruence|]. split; auto.
Qed.

(** ** The schedule *)
Lemma report_ok K n F L steps es cx se dbg : SI K n F L steps es cx se -> (dbg = true -> K = 0) -> report dbg cx = Ret tt.
Proof.
  intros H HK. unfold report. destruct dbg; auto. rewrite (HK eq_refl) in H. rewrite (sti_vars _ _ _ _ _ (s_st _ _ _ _ _ _ _ _ H)).
  rewrite (proj2 (Nat.leb_le _ _)); auto. apply (s_fix _ _ _ _ _ _ _ _ H).
Qed.

Definition restarts_now (cx : ctx) (sc : schedule) : bool := (sc_next_restart sc <=? N.of_nat (st_conflicts (cx_stats cx)))%N.

Record sched_out (K n : nat) (F L : list (list N)) (steps : list pstep) (cx : ctx) (st : state)
    (r : option bool) (cx' : ctx) (st' : state) (L' : list (list N)) (steps' : list pstep) (es' : list lent) : Prop := {
  sc_si : SI K n F L' steps' es' cx' (sta_search st');
  sc_steps : exists x, steps' = steps ++ x;
  sc_cf : st_conflicts (cx_stats cx) <= st_conflicts (cx_stats cx') <= S (st_conflicts (cx_stats cx));
  sc_prf : cx_proof cx = None <-> cx_proof cx' = None;
  sc_rst : if restarts_now cx (sta_schedule st)
    then st_restarts (cx_stats cx') = S (st_restarts (cx_stats cx)) /\
         sc_luby (sta_schedule st') = snd (luby_wide_advance (sc_luby (sta_schedule st))) /\
         sc_next_restart (sta_schedule st') =
           (N.of_nat (st_conflicts (cx_stats cx)) + fst (luby_wide_advance (sc_luby (sta_schedule st))) * 512)%N
    else st_restarts (cx_stats cx') = st_restarts (cx_stats cx) /\
         sc_luby (sta_schedule st') = sc_luby (sta_schedule st) /\
         sc_next_restart (sta_schedule st') = sc_next_restart (sta_schedule st);
  sc_res : match r with
    | Some true => p_unsat (se_prop (sta_search st')) = false /\
        t_propagated (p_trail (se_prop (sta_search st'))) = length (se_ss (sta_search st')) /\ all_assigned n (se_ss (sta_search st'))
    | Some false => p_unsat (se_prop (sta_search st')) = true /\
        (p_unsat (se_prop (sta_search st)) = true /\ (L = [] -> L' = [] /\ steps' = steps) \/
         p_unsat (se_prop (sta_search st)) = false /\ up_conflict (L' ++ F) [])
    | None => p_unsat (se_prop (sta_search st)) = false /\ p_unsat (se_prop (sta_search st')) = false /\
        (restarts_now cx (sta_schedule st) = false -> grow (K + n) (levs (sta_search st)) (levs (sta_search st')))
    end }.

Lemma schedule_step_ok select le dbg K n F L steps es cx st : select_ok le select -> (dbg = true -> K = 0) ->
  SI K n F L steps es cx (sta_search st) ->
  (schedule_search_step select dbg cx st = Panic PFull /\ afull (p_long (se_prop (sta_search st)))) \/
  exists r cx' st' L' steps' es', schedule_search_step select dbg cx st = Ret (r, cx', st') /\
    sched_out K n F L steps cx st r cx' st' L' steps' es'.
Proof.
  intros Hs HK H. unfold schedule_search_step.
  assert (A : exists cx1 se1, (if fst (should_restart cx (sta_schedule st)) then restart dbg cx (sta_search st) else Ret (cx, sta_search st)) = Ret (cx1, se1) /\
     awords (p_long (se_prop se1)) = awords (p_long (se_prop (sta_search st))) /\ SI K n F L steps es cx1 se1 /\ st_conflicts (cx_stats cx1) = st_conflicts (cx_stats cx) /\ cx_proof cx1 = cx_proof cx /\
     p_unsat (se_prop se1) = p_unsat (se_prop (sta_search st)) /\
     st_restarts (cx_stats cx1) = (if restarts_now cx (sta_schedule st) then S else id) (st_restarts (cx_stats cx)) /\
     (restarts_now cx (sta_schedule st) = false -> se1 = sta_search st)).
  { unfold should_restart. fold (restarts_now cx (sta_schedule st)). destruct (restarts_now cx (sta_schedule st)) eqn:Er.
    - destruct (luby_wide_advance _) as [t l]. cbn [fst].
      destruct (SI_restart dbg _ _ _ _ _ _ _ _ H) as (cx1 & se1 & E & H1 & -> & Eu & _).
      exists (bump_restarts cx), se1. split; auto. split; [f_equal; eapply restart_size; eauto|]. split; auto. split; auto. split; auto. split; auto. split; [|discriminate].
      unfold bump_restarts, cx_with; cbn [cx_stats st_restarts]. lia.
    - cbn [fst]. exists cx, (sta_search st). auto 15. }
  destruct A as (cx1 & se1 & E1 & Ea1 & H1 & Ec1 & Ep1 & Eu1 & Er1 & Es1).
  destruct (should_restart cx (sta_schedule st)) as [dr sc1] eqn:ER. cbn [fst] in E1. rewrite E1. cbn [bind].
  assert (B : exists cx2 se2 L' steps' es2, (if fst (should_reduce cx1 sc1) then let* (cx2, se2) := reduce select cx1 se1 in let* _ := report dbg cx2 in Ret (cx2, se2) else Ret (cx1, se1)) = Ret (cx2, se2) /\
     awords (p_long (se_prop se2)) = awords (p_long (se_prop se1)) /\ SI K n F L' steps' es2 cx2 se2 /\ (exists x, steps' = steps ++ x) /\ st_conflicts (cx_stats cx2) = st_conflicts (cx_stats cx1) /\
     (cx_proof cx1 = None <-> cx_proof cx2 = None) /\ p_unsat (se_prop se2) = p_unsat (se_prop se1) /\
     st_restarts (cx_stats cx2) = st_restarts (cx_stats cx1) /\ levs se2 = levs se1 /\ (L = [] -> L' = [] /\ steps' = steps)).
  { destruct (fst (should_reduce cx1 sc1)).
    - destruct (SI_reduce select le _ _ _ _ _ _ _ _ Hs H1) as (cx2 & se2 & L' & es2 & lls & E & H2 & Ecx & Eu & Et & _ & HL & _).
      rewrite E. cbn [bind]. rewrite (report_ok _ _ _ _ _ _ _ _ dbg H2 HK). cbn [bind].
      exists cx2, se2, L', (steps ++ map Del lls), es2. split; auto. split; [eapply reduce_size; eauto|]. split; auto. split; [eauto|].
      split; [rewrite Ecx; reflexivity|]. split; [rewrite Ecx; cbn [del_ctx cx_proof bump_reductions cx_with]; destruct (cx_proof cx1); split; congruence|].
      split; auto. split; [rewrite Ecx; reflexivity|]. split; [unfold levs; rewrite Et; auto|].
      intros Z. destruct (HL Z) as [-> ->]. rewrite app_nil_r. auto.
    - exists cx1, se1, L, steps, es. split; auto. split; auto. split; auto. split; [exists []; rewrite app_nil_r; auto|]. split; auto. split; [tauto|]. auto 10. }
  destruct B as (cx2 & se2 & L2 & steps2 & es2 & E2 & Ea2 & H2 & [x2 Hx2] & Ec2 & Ep2 & Eu2 & Er2 & El2 & HL2).
  destruct (should_reduce cx1 sc1) as [dd sc2] eqn:ED. cbn [fst] in E2. rewrite E2. cbn [bind].
  destruct (search_step_ok dbg _ _ _ _ _ _ _ _ H2) as [[E3 HF]|(r & cx3 & se3 & L3 & steps3 & es3 & E3 & O)]; rewrite E3; [left; split; [reflexivity|]|right].
  { unfold afull in *. rewrite Ea2, Ea1 in HF. exact HF. }
  cbn [bind]. exists r, cx3. eexists _, L3, steps3, es3. split; [reflexivity|].
  assert (Esc : sc_luby sc2 = sc_luby sc1 /\ sc_next_restart sc2 = sc_next_restart sc1).
  { unfold should_reduce in ED. destruct (_ <=? _)%N in ED; inversion ED; auto. }
  destruct Esc as [El Enr]. constructor; cbn [sta_search sta_schedule].
  - apply O.
  - destruct (so_steps _ _ _ _ _ _ _ _ _ _ _ _ _ O) as [x3 ->]. exists (x2 ++ x3). rewrite Hx2, app_assoc. auto.
  - pose proof (so_cf _ _ _ _ _ _ _ _ _ _ _ _ _ O). lia.
  - rewrite <- (so_prf _ _ _ _ _ _ _ _ _ _ _ _ _ O), <- Ep2, Ep1. reflexivity.
  - rewrite (so_rs _ _ _ _ _ _ _ _ _ _ _ _ _ O), Er2, Er1, El, Enr. unfold should_restart in ER. fold (restarts_now cx (sta_schedule st)) in ER.
    destruct (restarts_now cx (sta_schedule st)).
    + destruct (luby_wide_advance _) as [t l]. inversion ER; subst. auto.
    + inversion ER; subst. auto.
  - pose proof (so_res _ _ _ _ _ _ _ _ _ _ _ _ _ O) as R. destruct r as [[]|].
    + auto.
    + destruct R as [R1 [(R2 & R3 & R4)|(R2 & R3)]]; split; auto; [left|right]; split; try congruence; auto.
      intro Z. destruct (HL2 Z). subst. auto.
    + destruct R as (R1 & R2 & R3). split; [congruence|]. split; auto. intro Z. rewrite (Es1 Z) in El2. rewrite <- El2. auto.
Qed.
