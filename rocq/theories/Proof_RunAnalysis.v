(** The work of conflict analysis in one step (C96). *)
From Coq Require Import NArith List Bool Arith Lia Permutation ZifyN ZifyNat ZifyBool.
From Verif Require Import Model_Base Model_Lit Model_PartialAssignment Model_Header Model_Arena Model_Prop
  Model_Heap Model_Vsids Model_Analysis Model_Cost Model_DeriveCost Model_Luby Model_Solver Model_RunAnalysis Spec Proof_Base Proof_PA Proof_Lit
  Proof_Long Proof_Trail Proof_PropOps Proof_Backtrack Proof_Inv Proof_Propagate Proof_Gc Proof_Glue Proof_Analysis Proof_Minimize
  Proof_Learn Proof_Solver Proof_Search Proof_Solve Proof_Add Drivers_Solver Drivers_Search Proof_Main Proof_Visited Proof_Cost Proof_RunWork Prop_Prop Prop_Analysis Prop_Cost Prop_DeriveCost.
Import ListNotations.

Lemma er_analyze_n dbg cx an p c cb : erase (analyze_conflict_n dbg cx an p c cb) = analyze_conflict dbg cx an p c cb.
Proof.
  unfold analyze_conflict_n, analyze_conflict. destruct (negb _); [|reflexivity]. apply er_bind; [apply er_derive|]. intros [[p1 an1] cb1].
  apply er_bind; [apply er_derived|]. intros [lv an2]. apply er_bind; [apply er_units|]. intros [p2 cb3]. apply er_bind; [apply er_units|]. intros [[cx' an3] p3]. reflexivity.
Qed.
Lemma er_step_a dbg cx se : erase (search_step_a dbg cx se) = search_step dbg cx se.
Proof.
  unfold search_step_a, search_step. destruct (p_unsat _); [reflexivity|]. apply er_bind; [apply er_units|]. intro p0.
  apply er_bind; [apply er_units|]. intros [[cx1 p1] r]. destruct r as [c|]; [|apply er_units].
  destruct (Nat.eqb _ 0); [reflexivity|]. apply er_bind; [apply er_analyze_n|]. intros [[[cx3 an] p2] cb]. reflexivity.
Qed.
Lemma er_schedule_a select dbg cx st : erase (schedule_search_step_a select dbg cx st) = schedule_search_step select dbg cx st.
Proof.
  unfold schedule_search_step_a, schedule_search_step. destruct (should_restart _ _) as [dr sc1]. apply er_bind; [apply er_units|]. intros [cx1 se1].
  destruct (should_reduce _ _) as [dd sc2]. apply er_bind; [apply er_units|]. intros [cx2 se2]. apply er_bind; [apply er_step_a|]. intros [[r cx3] se3]. reflexivity.
Qed.

(** ** The sizes of all reasons together *)
Lemma sum_incl {A} (f : A -> nat) l : NoDup l -> forall es, incl l es -> list_sum (map f l) <= list_sum (map f es).
Proof.
  induction 1 as [|x l Hx ND IH]; intros es Hi; [cbn; lia|].
  destruct (in_split x es (Hi x (or_introl eq_refl))) as (e1 & e2 & ->).
  assert (Q : incl l (e1 ++ e2)).
  { intros y Hy. specialize (Hi y (or_intror Hy)). apply in_app_or in Hi as [Hi|[->|Hi]]; [apply in_or_app; auto|contradiction|apply in_or_app; auto]. }
  specialize (IH _ Q). rewrite map_app, list_sum_app in *. cbn [map]. change (list_sum (f x :: map f l)) with (f x + list_sum (map f l)).
  change (list_sum (f x :: map f e2)) with (f x + list_sum (map f e2)). lia.
Qed.
Definition rsz (p : prop) (s : step) : nat := match reason_lits (p_long p) (s_reason s) with Ret ls => length ls | _ => 0 end.
Lemma reasons_sum n es p : PI n es p -> NoDup (slits (t_steps (p_trail p))) ->
  fold_right (fun s a => rsz p s + a) 0 (t_steps (p_trail p)) <= lits_of es + length (t_steps (p_trail p)).
Proof.
  intros HP ND.
  assert (G : forall l, (forall s, In s l -> In s (t_steps (p_trail p))) -> exists ents, incl ents es /\
    (exists ss, map (fun e => nth_error (le_lits e) 0) ents = map (@Some N) ss /\ incl ss (slits l) /\ (NoDup (slits l) -> NoDup ss)) /\
    fold_right (fun s a => rsz p s + a) 0 l <= lits_of ents + length l).
  { induction l as [|s l IH]; intro H; [exists []; split; [intros x []|split; [exists []; split; [reflexivity|split; [intros x []|constructor]]|cbn; lia]]|].
    destruct IH as (ents & I1 & (ss & S1 & S2 & S3) & I3); [intros; apply H; right; auto|].
    assert (Hs : In s (t_steps (p_trail p))) by (apply H; left; auto). apply In_nth_error in Hs as [i Ei].
    assert (D : rsz p s <= 1 \/ exists c h rl, In (c, h, s_lit s :: rl) es /\ rsz p s = length rl).
    { unfold rsz. destruct (s_reason s) as [| |b|c] eqn:Er; [left; cbn; lia|left; cbn; lia|left; cbn; lia|right].
      destruct (reason_lits_ok _ _ _ _ _ HP Ei) as (rl & R1 & R2 & _); [congruence|]. rewrite Er in R1. rewrite R1. unfold rsn in R2. rewrite Er in R2.
      destruct R2 as (h & R2). exists c, h, rl. auto. }
    cbn [fold_right length]. destruct D as [D|(c & h & rl & D1 & D2)].
    - exists ents. split; [auto|]. split; [|lia]. exists ss. split; [auto|]. split; [intros x Hx; right; auto|]. intro N. inversion N; auto.
    - exists ((c, h, s_lit s :: rl) :: ents). split; [intros x [<-|Hx]; auto|]. split.
      + exists (s_lit s :: ss). split; [cbn [map]; f_equal; exact S1|]. split; [intros x [<-|Hx]; [left; auto|right; auto]|].
        intro N. cbn [map] in N. inversion N as [|? ? N1 N2]; subst. constructor; [intro Hx; apply N1; apply S2; exact Hx|auto].
      + change (lits_of ((c, h, s_lit s :: rl) :: ents)) with (S (length rl) + lits_of ents). lia. }
  destruct (G _ (fun s H => H)) as (ents & I1 & (ss & S1 & S2 & S3) & I3).
  assert (NE : NoDup ents).
  { apply (NoDup_map_inv (fun e => nth_error (le_lits e) 0)). rewrite S1. apply FinFun.Injective_map_NoDup; [intros x y E; congruence|auto]. }
  pose proof (sum_incl (fun e => length (le_lits e)) ents NE es I1) as Q. fold (lits_of ents) (lits_of es) in Q. lia.
Qed.

(** ** One conflict *)
Lemma minimize_cost_PI n es p2 an2 der u r work : PI n es p2 -> AN an2 -> NoDup der -> an_derived an2 = der ++ [neg (s_lit u)] ->
  In u (t_steps (p_trail p2)) -> slev (t_steps (p_trail p2)) (s_lit u) = decision_level (p_trail p2) ->
  (forall x, In x der -> In (neg x) (slits (t_steps (p_trail p2))) /\ 1 <= slev (t_steps (p_trail p2)) (neg x) < decision_level (p_trail p2)) ->
  minimize_derived_clause_n an2 p2 = Ret (r, work) ->
  work <= 8 * fold_right (fun s a => rsz p2 s + a) 0 (t_steps (p_trail p2)) + 7 * length (t_steps (p_trail p2)) /\
  length (an_derived (snd r)) <= length (t_steps (p_trail p2)).
Proof.
  intros HP2 HA2 ND Eder Hu Lu Hder E.
  assert (Hin : forall x, In x (an_derived an2) -> In (neg x) (slits (t_steps (p_trail p2)))).
  { rewrite Eder. intros x Hx. apply in_app_or in Hx as [Hx|[<-|[]]]; [apply (Hder x Hx)|]. rewrite neg_neg. apply (in_map s_lit). exact Hu. }
  assert (HND : NoDup (an_derived an2)).
  { rewrite Eder. apply NoDup_app_iff. split; [auto|]. split; [constructor; [tauto|constructor]|]. intros x Hx [<-|[]].
    destruct (Hder _ Hx) as [_ Hk]. rewrite neg_neg, Lu in Hk. lia. }
  pose proof (index_nodup _ p2 _ (pi_tr _ _ _ _ HP2) HND Hin) as HI.
  assert (Hlen : length (an_derived an2) <= length (t_steps (p_trail p2))).
  { destruct (mapM_ok (trail_index (p_trail p2)) (an_derived an2)) as [is Ei].
    { intros x Hx. destruct (tr_index_neg _ _ (pi_tr _ _ _ _ HP2) x (Hin x Hx)) as (j & s & A1 & _). eauto. }
    destruct (HI is Ei) as (I1 & I2 & I3). rewrite <- I2. rewrite <- (seq_length (length (t_steps (p_trail p2))) 0).
    apply NoDup_incl_length; auto. intros i Hi. apply in_seq. specialize (I3 i Hi). lia. }
  assert (HR : minimize_derived_clause an2 p2 = Ret r) by (apply counted_minimize; eauto).
  unfold minimize_derived_clause_n in E. unfold minimize_derived_clause in HR. destruct (Nat.ltb_spec 1 (length (an_derived an2))) as [L|L].
  - apply bindC_ret in E as ([[lv cl'] m'] & k1 & k2 & R1 & R2 & ->). inversion R2; subst.
    assert (Hk : k1 <= 4 * wsum p2 (length (t_steps (p_trail p2))) + 3 * length (an_derived an2)).
    { eapply minimize_cost; [eapply acyclic_PI; eauto|apply HA2|intros is Ei; apply (HI is Ei)|exact R1]. }
    rewrite (wsum_steps p2 (acyclic_PI _ _ _ HP2)) in Hk. change (fun s a => match reason_lits (p_long p2) (s_reason s) with Ret ls => length ls | _ => 0 end + a) with (fun s a => rsz p2 s + a) in Hk.
    split; [lia|]. cbn [snd an_derived an_set_min an_set_derived].
    destruct (minimize_ok _ es p2 HP2 (an_min an2) der (s_lit u)) as (level & b & kept & rem & m2 & Em & _ & Pm & _); [apply HA2|intros ->; rewrite Eder in L; cbn in L; lia|auto|exact Hder|apply (in_map s_lit); exact Hu|exact Lu|].
    rewrite <- Eder in Em. rewrite Em in HR. cbn [bind] in HR. inversion HR; subst. apply Permutation_length in Pm. rewrite Eder, app_length in Hlen. cbn [length] in *. rewrite app_length in Pm. lia.
  - inversion E; subst. cbn [snd]. split; [lia|exact Hlen].
Qed.
Lemma ESH_lits es es' : ESH es es' -> lits_of es' = lits_of es.
Proof.
  unfold ESH, lits_of. induction 1 as [|x y l l' H F IH]; [reflexivity|]. cbn [map list_sum fold_right].
  unfold list_sum in IH. rewrite IH. f_equal. f_equal. destruct H as (_ & -> & _). reflexivity.
Qed.

(** The bound for one conflict, for [n] variables, [m] literals in long clauses *)
Lemma analyze_cost n es p dbg cx an c cb r work : PI n es p -> NoDup (slits (t_steps (p_trail p))) -> AN an -> CB n cb -> conf_ok n es p c ->
  analyze_conflict_n dbg cx an p c cb = Ret (r, work) ->
  work <= 16 * lits_of es + 27 * length (t_steps (p_trail p)) + 8.
Proof.
  intros HP ND HA HC Hc E. unfold analyze_conflict_n in E. destruct (negb (Nat.eqb (decision_level (p_trail p)) 0)) eqn:Ed; [|discriminate].
  apply negb_true_iff, Nat.eqb_neq in Ed.
  destruct (derive_ok _ es p an c cb HP ltac:(lia) HA HC Hc) as (cl & p3 & es2 & an4 & cb3 & der & u & E2 & Ecl & HS & HCB & HA2 & HG & Eder & HD).
  apply bindC_ret in E as ([[p1 an1] cb1] & k1 & k2 & E1 & E & ->). pose proof (derive_cost _ es p HP _ _ _ _ _ _ Hc Ecl E1) as B1.
  assert (E1' : derive_1uip_clause an p c cb = Ret (p1, an1, cb1)) by (apply counted_derive; eauto). rewrite E2 in E1'. injection E1' as -> -> ->.
  apply bindC_ret in E as ([lv an2] & k3 & k4 & E3 & E & ->).
  destruct (do_u _ _ _ _ _ HD) as (iu & Eu & Lu). pose proof (PS_trail _ _ _ _ _ HS) as Et. pose proof (ps_pi _ _ _ _ _ HS) as HP2.
  destruct (minimize_cost_PI _ es2 p1 an1 der u (lv, an2) k3 HP2 HA2) as [B2 B3]; auto.
  { apply HD. } { rewrite Et. eapply nth_error_In; eauto. } { rewrite Et. rewrite (tr_slev _ _ (pi_tr _ _ _ _ HP) _ _ Eu). apply HD. } { rewrite Et. apply HD. }
  apply bindC_ret in E as ([p2 cb4] & k5 & k6 & E4 & E & ->). apply units_ret in E4 as [E4 ->].
  apply bindC_ret in E as ([[cx' an3] p4] & k7 & k8 & E5 & E & ->). apply units_ret in E5 as [E5 ->]. inversion E; subst. cbn [snd] in B3.
  assert (R1 : rsum p (t_steps (p_trail p)) = 4 * fold_right (fun s a => rsz p s + a) 0 (t_steps (p_trail p)) + 3 * length (t_steps (p_trail p))).
  { clear. induction (t_steps (p_trail p)) as [|s l IH]; [reflexivity|]. cbn [rsum fold_right length]. change (rsize p s) with (rsz p s). lia. }
  pose proof (reasons_sum _ _ _ HP ND) as Q1. pose proof (reasons_sum _ _ _ HP2) as Q2. rewrite Et in *. specialize (Q2 ND).
  rewrite (ESH_lits _ _ (ps_es _ _ _ _ _ HS)) in Q2.
  assert (C1 : length cl <= lits_of es + 2).
  { destruct Hc as (cl' & Ecl' & Hst & _). rewrite Ecl in Ecl'. injection Ecl' as <-. destruct c as [x y|c]; [cbn in Ecl; inversion Ecl; subst; cbn; lia|].
    destruct Hst as (h & Hi & _). pose proof (sum_incl (fun e => length (le_lits e)) [(c, h, cl)] ltac:(constructor; [tauto|constructor]) es ltac:(intros z [<-|[]]; exact Hi)) as Q.
    fold (lits_of es) in Q. cbn [map le_lits snd list_sum fold_right] in Q. lia. }
  lia.
Qed.

(** ** One step *)
Lemma RW_step_a dbg w a F cx se L steps es r cx' se' k : RW w a F cx se L steps es -> search_step_a dbg cx se = Ret ((r, cx', se'), k) ->
  k <= (st_conflicts (cx_stats cx') - st_conflicts (cx_stats cx)) * (16 * lits F + 16 * cnf_vars F * st_conflicts (cx_stats cx) + 27 * cnf_vars F + 8) /\
  st_conflicts (cx_stats cx) <= st_conflicts (cx_stats cx') <= S (st_conflicts (cx_stats cx)).
Proof.
  intros H E. unfold search_step_a in E. destruct (p_unsat (se_prop se)) eqn:Eu.
  { inversion E; subst. lia. }
  apply bindC_ret in E as (p0 & k1 & k2 & E0 & E & ->). apply units_ret in E0 as [E0 ->].
  destruct (RW_collect dbg _ _ _ _ _ _ _ _ _ H E0) as (es0 & H0). clear H. rename H0 into H. set (se0 := with_prop se p0) in *.
  apply bindC_ret in E as ([[cx1 p1] r1] & k3 & k4 & E1 & E & ->). apply units_ret in E1 as [E1 ->].
  pose proof (rw_si _ _ _ _ _ _ _ _ H) as HI.
  destruct (SI_propagate dbg _ _ _ _ _ _ _ _ HI) as (cx2 & p2 & es1 & r2 & E2 & H1 & HX & HQ & HR). change (se_prop se0) with p0 in *.
  rewrite E1 in E2. inversion E2; subst cx2 p2 r2. clear E2.
  destruct r1 as [c|].
  - destruct HR as [HC ->].
    assert (H2 : SI 0 (cnf_vars F) F L steps es1 (bump_conflicts cx) (mkSearch p1 (se_analysis se0) (se_vsids se0) (se_phases se0))).
    { eapply SI_ctx; [exact H1|..]; try reflexivity. apply H1. }
    assert (C1 : st_conflicts (cx_stats (bump_conflicts cx)) = S (st_conflicts (cx_stats cx))).
    { unfold bump_conflicts, cx_with; cbn [cx_stats st_conflicts]. lia. }
    destruct (Nat.eqb_spec (decision_level (p_trail p1)) 0) as [Hd|Hd].
    + inversion E; subst r cx' se' k4. rewrite C1. lia.
    + apply bindC_ret in E as ([[[cx3 an] p3] cb] & k5 & k6 & E3 & E & ->). inversion E; subst r cx' se' k6.
      assert (E3' : analyze_conflict dbg (bump_conflicts cx) (se_analysis se) p1 c (mkCb (se_vsids se) (se_phases se)) = Ret (cx3, an, p3, cb)).
      { rewrite <- er_analyze_n. rewrite E3. reflexivity. }
      assert (D1 : st_conflicts (cx_stats cx3) = S (st_conflicts (cx_stats cx))).
      { destruct (SI_analyze_nd dbg _ _ _ _ _ _ _ _ c H2 HC) as [[E4 _]|R]; [cbn [se_prop]; lia|cbn [se_analysis se_prop se_vsids se_phases se0 with_prop] in E4; rewrite E3' in E4; discriminate|].
        destruct R as (cx5 & an5 & p5 & cb5 & es5 & cl & level & target & r5 & a5 & E5 & H5 & _ & _ & _ & _ & (h & Ecx) & _).
        cbn [se_analysis se_prop se_vsids se_phases se0 with_prop] in E5. rewrite E3' in E5. injection E5 as -> -> -> ->.
        rewrite Ecx. cbn [cx_stats]. rewrite <- C1. unfold st_add. destruct cl as [|? [|? [|]]]; auto. destruct (lh_redundant h); auto. }
      rewrite D1. replace (S (st_conflicts (cx_stats cx)) - st_conflicts (cx_stats cx)) with 1 by lia. split; [|lia].
      pose proof (analyze_cost _ _ _ _ _ _ _ _ _ _ (s_pi _ _ _ _ _ _ _ _ H2) (proj1 (dupK_0 _) (s_dup _ _ _ _ _ _ _ _ H2)) (s_an _ _ _ _ _ _ _ _ H2) (s_cb _ _ _ _ _ _ _ _ H2) HC E3) as B.
      cbn [se_prop] in B. pose proof (lits_SI _ _ _ _ _ _ _ _ H2) as Q. pose proof (rw_a _ _ _ _ _ _ _ _ H) as A.
      pose proof (trail_bound _ _ _ _ (pi_vr _ _ _ _ (s_pi _ _ _ _ _ _ _ _ H2)) (s_dup _ _ _ _ _ _ _ _ H2)) as T. cbn [se_prop] in T. rewrite <- Nat.mul_assoc. lia.
  - destruct HR as [HQ1 Ecx]. apply units_ret in E as [E ->].
    assert (X1 : st_conflicts (cx_stats cx1) = st_conflicts (cx_stats cx)) by (rewrite Ecx; reflexivity).
    destruct (pop_decision_var _ _) as [[ov vs]| |]; cbn [bind] in E; try discriminate. destruct ov as [v|].
    + destruct (decide_phase _ _) as [l'| |]; cbn [bind] in E; try discriminate. destruct (assign_decision _ _ _) as [p4| |]; cbn [bind] in E; try discriminate.
      inversion E; subst. cbn [bump_decisions cx_with cx_stats st_conflicts]. lia.
    + inversion E; subst. lia.
Qed.
Lemma RW_schedule_a select dbg w a F cx st L steps es r cx' st' k : anysel select -> RW w a F cx (sta_search st) L steps es ->
  schedule_search_step_a select dbg cx st = Ret ((r, cx', st'), k) ->
  k <= (st_conflicts (cx_stats cx') - st_conflicts (cx_stats cx)) * (16 * lits F + 16 * cnf_vars F * st_conflicts (cx_stats cx) + 27 * cnf_vars F + 8) /\
  st_conflicts (cx_stats cx) <= st_conflicts (cx_stats cx') <= S (st_conflicts (cx_stats cx)).
Proof.
  intros Hs H E. unfold schedule_search_step_a in E. destruct (should_restart _ _) as [dr sc1].
  apply bindC_ret in E as ([cx1 se1] & k1 & k2 & E1 & E & ->). apply units_ret in E1 as [E1 ->].
  assert (H1 : exists es1, RW w a F cx1 se1 L steps es1 /\ st_conflicts (cx_stats cx1) = st_conflicts (cx_stats cx)).
  { destruct dr; [|inversion E1; subst; eauto]. destruct (RW_restart _ _ _ _ _ _ _ _ _ _ _ H E1) as (es1 & H1). exists es1. split; [auto|].
    destruct (SI_restart dbg _ _ _ _ _ _ _ _ (rw_si _ _ _ _ _ _ _ _ H)) as (cx4 & se4 & E4 & _ & Ecx & _). rewrite E1 in E4. injection E4 as <- <-. rewrite Ecx. reflexivity. }
  destruct H1 as (es1 & H1 & C1). destruct (should_reduce _ _) as [dd sc2].
  apply bindC_ret in E as ([cx2 se2] & k3 & k4 & E2 & E & ->). apply units_ret in E2 as [E2 ->].
  assert (H2 : exists L2 steps2 es2, RW w a F cx2 se2 L2 steps2 es2 /\ st_conflicts (cx_stats cx2) = st_conflicts (cx_stats cx1)).
  { destruct dd; [|inversion E2; subst; eauto 10]. destruct (reduce select cx1 se1) as [[cx4 se4]| |] eqn:E4; cbn [bind] in E2; try discriminate.
    destruct (report _ _); cbn [bind] in E2; try discriminate. inversion E2; subst. destruct (RW_reduce _ _ _ _ _ _ _ _ _ _ _ Hs H1 E4) as (L2 & steps2 & es2 & H2).
    exists L2, steps2, es2. split; [auto|].
    destruct (SI_reduce select _ _ _ _ _ _ _ _ _ Hs (rw_si _ _ _ _ _ _ _ _ H1)) as (cx5 & se5 & L5 & es5 & lls & E5 & _ & Ecx & _). rewrite E4 in E5. injection E5 as <- <-. rewrite Ecx. reflexivity. }
  destruct H2 as (L2 & steps2 & es2 & H2 & C2).
  apply bindC_ret in E as ([[r3 cx3] se3] & k5 & k6 & E3 & E & ->). inversion E; subst. cbn [plus]. rewrite Nat.add_0_r, <- C1, <- C2. eapply RW_step_a; eauto.
Qed.
