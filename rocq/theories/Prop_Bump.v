(** C21, C55-C57: what conflict analysis derives, bumps and records, exactly. *)
From Coq Require Import NArith List Bool Arith Lia Permutation Sorted ZifyN ZifyNat ZifyBool SpecFloat.
From Verif Require Import Model_Base Model_Lit Model_PartialAssignment Model_Header Model_Arena Model_Prop
  Model_Heap Model_Vsids Model_Analysis Model_Luby Model_Solver Spec Proof_Base Proof_PA Proof_Lit Proof_Header Proof_Heap
  Proof_Long Proof_Trail Proof_Backtrack Proof_Inv Proof_Propagate Proof_PropOps Proof_Gc Proof_Glue Proof_Analysis Proof_Derive Proof_Minimize Proof_Learn
  Proof_DB Proof_Solver Proof_Search Proof_Solve Proof_Add
  Drivers_Solver Drivers_Search Drivers_Analysis Proof_Main Proof_Visited Proof_History Examples_Solver Prop_Prop Prop_Analysis Prop_Search.
Import ListNotations.

(** ** The specification and the invariants speak of the same literals *)
Section Conv.
Variables (n : nat) (es : list lent) (p : prop) (cl : list N) (c : conflict).
Hypothesis HP : PI n es p.
Hypothesis Hd : 1 <= decision_level (p_trail p).
Notation ss := (t_steps (p_trail p)).
Notation d := (decision_level (p_trail p)).
Hypothesis Hcl : forall x, In x cl -> In (neg x) (slits ss).

Lemma involved_met k x : involved p cl k x <-> met es ss d cl (S k) x.
Proof.
  split.
  - induction 1 as [x j A B C|i s rest x j A B C D IH R I T Z].
    + apply met_conflict; auto. apply (true_at_slev _ _ _ HP) in B as [_ B]. lia.
    + apply (rsn_reason _ _ _ HP) in R; [|eapply nth_error_In; eauto]. eapply met_reason; eauto. apply (true_at_slev _ _ _ HP) in T as [_ T]. lia.
  - induction 1 as [x A B|i s rl x A B C D IH R I T].
    + apply inv_conflict with (slev ss (neg x)); auto. apply (true_at_slev _ _ _ HP). auto.
    + eapply inv_reason; eauto; [apply (rsn_reason _ _ _ HP); eauto; eapply nth_error_In; eauto|].
      apply (true_at_slev _ _ _ HP). split; auto. eapply before_in. eapply rsn_before; eauto.
Qed.

Lemma used_conv k r : used_clause p c cl k r <-> used_ref es ss d cl c (S k) r.
Proof.
  unfold used_clause, used_ref. split; (intros [H|(i & s & A & B & C & D & E)]; [auto|right; exists i, s]); rewrite involved_met in *; auto.
Qed.

Lemma uip_conv k u : uip_at es p cl k u -> nth_error ss k = Some u /\ first_uip p cl k.
Proof.
  intros [U1 U2 U3 U4 U5]. split; auto. split.
  - exists u. split; auto. split; auto. split; [apply involved_met; auto|]. intros i s A B C H. apply involved_met in H.
    pose proof (canon_d n es p HP Hd i s A C) as [Q1 Q2].
    destruct (U4 _ H) as (j & Ej & Lj); rewrite neg_neg in *; auto. rewrite Q1 in Ej. inversion Ej. lia.
  - intros k' L (u' & A & B & C & D). apply involved_met in C. destruct (U5 k' u') as (x & X1 & X2 & (j & X3 & X4)); auto.
    destruct (lpos_some _ _ _ X3) as (s & Es & El). eapply (D j s Es X4).
    + rewrite <- (tr_slev n _ (pi_tr _ _ _ _ HP) _ _ Es), El. exact X2.
    + apply involved_met. rewrite El, neg_neg. exact X1.
Qed.
End Conv.

(** What the analysis of a conflict of a visited state does. *)
Lemma analysis_state select dbg F cx se cx1 p1 c cx2 an p2 cb :
  select_ok (fun _ _ => True) select -> visited select dbg F cx se ->
  propagate dbg cx (se_prop se) = Ret (cx1, p1, Some c) -> decision_level (p_trail p1) <> 0 ->
  analyze_conflict dbg (bump_conflicts cx1) (se_analysis se) p1 c (search_cb se) = Ret (cx2, an, p2, cb) ->
  exists es cl, PI (cnf_vars F) es p1 /\ CB (cnf_vars F) (search_cb se) /\ conflict_lits (p_long p1) c = Ret cl /\ (forall x, In x cl -> In (neg x) (slits (t_steps (p_trail p1)))) /\
   exists es1 es' h a rest r level target,
     analyzed (cnf_vars F) es p1 (bump_conflicts cx1) (search_cb se) cl cx2 an p2 cb es1 es' h a rest r level target /\
     exists v1 der u k V B, az_trace (cnf_vars F) es p1 c (search_cb se) cb cl es1 es' h a rest r target v1 der u k V B.
Proof.
  intros Hs HV E Hd EA. destruct (conflict_state _ _ _ _ _ _ _ _ Hs HV E) as (es & HP & HA & HC & Hc).
  assert (Hf := Hc). destruct Hf as (cl & Ecl & _ & Hf & _).
  destruct (analyze_full _ es p1 dbg (bump_conflicts cx1) (se_analysis se) c (search_cb se) HP ltac:(lia) HA HC Hc) as (cl' & Ecl' & [[E1 _]|R]);
    [rewrite EA in E1; discriminate|]. rewrite Ecl in Ecl'. inversion Ecl'; subst cl'.
  destruct R as (cx3 & an3 & p3 & cb3 & es1 & es' & h & a & rest & r & k & target & E3 & Z & T). rewrite EA in E3. inversion E3; subst cx3 an3 p3 cb3.
  exists es, cl. split; auto. split; auto. split; auto. split; auto. eauto 15.
Qed.

(** ** C21 *)
(** The derived clause is the first-UIP clause: the negated first unique
    implication point and exactly those literals below the conflict level that
    the resolution down to it leaves. *)
Theorem first_uip_exact select dbg F cx se cx1 p1 c :
  select_ok (fun _ _ => True) select -> visited select dbg F cx se ->
  propagate dbg cx (se_prop se) = Ret (cx1, p1, Some c) -> decision_level (p_trail p1) <> 0 ->
  exists p2 an2 cb2 der cl k u, derive_1uip_clause (se_analysis se) p1 c (search_cb se) = Ret (p2, an2, cb2) /\
    conflict_lits (p_long p1) c = Ret cl /\ first_uip p1 cl k /\ nth_error (t_steps (p_trail p1)) k = Some u /\
    an_derived an2 = der ++ [neg (s_lit u)] /\ NoDup der /\
    forall x, In x der <-> involved p1 cl k x /\ exists j, j < decision_level (p_trail p1) /\ true_at p1 (neg x) j.
Proof.
  intros Hs HV E Hd. destruct (conflict_state _ _ _ _ _ _ _ _ Hs HV E) as (es & HP & HA & HC & Hc).
  assert (Hf := Hc). destruct Hf as (cl & Ecl & _ & Hf & _).
  destruct (derive_exact _ es p1 (se_analysis se) c (search_cb se) HP ltac:(lia) HA HC Hc) as (cl' & p2 & an2 & cb2 & der & u & k & V & B & E2 & Ecl' & HS & HCB & HA2 & HG & Eder & HD & HT).
  rewrite Ecl in Ecl'. inversion Ecl'; subst cl'. destruct (uip_conv _ _ _ _ HP ltac:(lia) Hf k u (tc_u _ _ _ _ _ _ _ _ _ _ _ _ HT)) as [U1 U2].
  exists p2, an2, cb2, der, cl, k, u. split; auto. split; auto. split; auto. split; auto. split; auto. split; [apply HD|].
  intro x. rewrite (tc_der _ _ _ _ _ _ _ _ _ _ _ _ HT), filter_In, (tc_v _ _ _ _ _ _ _ _ _ _ _ _ HT), (involved_met _ _ _ _ HP ltac:(lia) Hf).
  split; intros [X1 X2]; split; auto.
  - eexists. split; [apply Nat.ltb_lt, X2|]. apply (true_at_slev _ _ _ HP). split; auto. eapply met_in; eauto.
  - destruct X2 as (j & J1 & J2). apply (true_at_slev _ _ _ HP) in J2 as [_ <-]. apply Nat.ltb_lt; auto.
Qed.

(** ** C55 *)
Lemma bumps_exact inc V : forall v v1, HS (vs_activity v) -> vs_increment v = inc -> NoDup (map vidx V) ->
  (forall i b, nth_error (h_values (vs_activity v)) i = Some b -> In i (map vidx V) -> SFltb RESCALE_LIMIT (f32_add (f32_from_bits b) inc) = false) ->
  foldM bump_var V v = Ret v1 ->
  vs_increment v1 = inc /\ length (h_values (vs_activity v1)) = length (h_values (vs_activity v)) /\
  forall i b, nth_error (h_values (vs_activity v)) i = Some b ->
    (In i (map vidx V) -> nth_error (h_values (vs_activity v1)) i = Some (bump_bits inc b)) /\
    (~ In i (map vidx V) -> nth_error (h_values (vs_activity v1)) i = Some b).
Proof.
  induction V as [|x V IH]; cbn [foldM map]; intros v v1 H Hi ND Hr E.
  { inversion E; subst. split; auto. split; auto. intros i b Eb. split; [intros []|auto]. }
  destruct (bump_var v x) as [v2| |] eqn:E2; [|discriminate..]. cbn [bind] in E. apply NoDup_cons_iff in ND as [N1 N2].
  unfold bump_var in E2. destruct (vget (h_values (vs_activity v)) (vidx x)) as [old| |] eqn:Eo; cbn [bind] in E2; [|discriminate..].
  apply vget_ok in Eo. assert (Hlt : vidx x < length (h_values (vs_activity v))) by (apply nth_error_Some; congruence).
  destruct (increase_ok (vs_activity v) (vidx x) (bump_bits (vs_increment v)) H Hlt) as (h' & E3 & H' & Ev & _).
  rewrite E3 in E2. cbn [bind] in E2. rewrite Hi in E2, Ev. rewrite (Hr _ _ Eo (or_introl eq_refl)) in E2. inversion E2; subst v2. clear E2 E3.
  rewrite (nth_error_nth _ _ _ Eo) in Ev.
  assert (G : forall i, i <> vidx x -> nth_error (h_values h') i = nth_error (h_values (vs_activity v)) i) by (intros i Q; rewrite Ev, upd_other; auto).
  destruct (IH (mkVsids h' inc) v1 H' eq_refl N2) as (A & B & C); cbn [vs_activity vs_increment] in *; auto.
  { intros i b Eb Ii. assert (i <> vidx x) by congruence. rewrite G in Eb by auto. apply (Hr i b Eb). right; auto. }
  split; auto. split; [rewrite B, Ev, upd_length; auto|]. intros i b Eb. destruct (Nat.eq_dec i (vidx x)) as [->|Q].
  - rewrite Eo in Eb. inversion Eb; subst old. assert (E4 : nth_error (h_values h') (vidx x) = Some (bump_bits inc b)) by (rewrite Ev, upd_same; auto).
    split; [intros _; apply (proj2 (C _ _ E4)); auto|]. intro Z. exfalso. apply Z. left; auto.
  - rewrite <- (G i Q) in Eb. destruct (C i b Eb) as [C1 C2]. split.
    + intros [Z|Z]; [congruence|auto].
    + intro Z. apply C2. intro Z'. apply Z. right; auto.
Qed.

(** Every variable involved in the conflict is bumped once, no other variable is,
    and then the increment is raised. *)
Theorem conflict_bumps select dbg F cx se cx1 p1 c cx2 an p2 cb :
  select_ok (fun _ _ => True) select -> visited select dbg F cx se ->
  propagate dbg cx (se_prop se) = Ret (cx1, p1, Some c) -> decision_level (p_trail p1) <> 0 ->
  analyze_conflict dbg (bump_conflicts cx1) (se_analysis se) p1 c (search_cb se) = Ret (cx2, an, p2, cb) ->
  exists cl k vs v1, conflict_lits (p_long p1) c = Ret cl /\ first_uip p1 cl k /\
    lists N vs (involved p1 cl k) /\ foldM bump_var vs (se_vsids se) = Ret v1 /\
    h_values (vs_activity (cb_vsids cb)) = h_values (vs_activity (vsids_decay v1)) /\
    vs_increment (cb_vsids cb) = vs_increment (vsids_decay v1).
Proof.
  intros Hs HV E Hd EA. destruct (analysis_state _ _ _ _ _ _ _ _ _ _ _ _ Hs HV E Hd EA)
    as (es & cl & HP & HC & Ecl & Hf & es1 & es' & h & a & rest & r & level & target & Z & v1 & der & u & k & V & B & T).
  pose proof (at_tr _ _ _ _ _ _ _ _ _ _ _ _ _ _ _ _ _ _ _ _ T) as HT.
  destruct (uip_conv _ _ _ _ HP ltac:(lia) Hf k u (tc_u _ _ _ _ _ _ _ _ _ _ _ _ HT)) as [U1 U2].
  exists cl, k, V, v1. split; auto. split; auto. split; [|split; [apply HT|split; apply T]]. split; [apply HT|].
  intro x. rewrite (tc_v _ _ _ _ _ _ _ _ _ _ _ _ HT). symmetry. apply (involved_met _ _ _ _ HP ltac:(lia) Hf).
Qed.

(** The same in numbers, as long as nothing has to be rescaled: the activity of the
    involved variables grows by the increment, and the increment by the factor
    1 / 0.95. *)
Theorem conflict_activities select dbg F cx se cx1 p1 c cx2 an p2 cb inc :
  select_ok (fun _ _ => True) select -> visited select dbg F cx se ->
  propagate dbg cx (se_prop se) = Ret (cx1, p1, Some c) -> decision_level (p_trail p1) <> 0 ->
  analyze_conflict dbg (bump_conflicts cx1) (se_analysis se) p1 c (search_cb se) = Ret (cx2, an, p2, cb) ->
  vs_increment (se_vsids se) = inc ->
  (forall v b, nth_error (h_values (vs_activity (se_vsids se))) v = Some b -> SFltb RESCALE_LIMIT (f32_add (f32_from_bits b) inc) = false) ->
  SFltb RESCALE_LIMIT (f32_mul inc INVERSE_DECAY) = false ->
  vs_increment (cb_vsids cb) = f32_mul inc INVERSE_DECAY /\
  length (h_values (vs_activity (cb_vsids cb))) = length (h_values (vs_activity (se_vsids se))) /\
  exists cl k, conflict_lits (p_long p1) c = Ret cl /\ first_uip p1 cl k /\
  forall v b, nth_error (h_values (vs_activity (se_vsids se))) v = Some b ->
    (involved_var p1 cl k v -> nth_error (h_values (vs_activity (cb_vsids cb))) v = Some (f32_to_bits (f32_add (f32_from_bits b) inc))) /\
    (~ involved_var p1 cl k v -> nth_error (h_values (vs_activity (cb_vsids cb))) v = Some b).
Proof.
  intros Hs HV E Hd EA Hi Hr Hr2. destruct (analysis_state _ _ _ _ _ _ _ _ _ _ _ _ Hs HV E Hd EA)
    as (es & cl & HP & HC & Ecl & Hf & es1 & es' & h & a & rest & r & level & target & Z & v1 & der & u & k & V & B & T).
  pose proof (at_tr _ _ _ _ _ _ _ _ _ _ _ _ _ _ _ _ _ _ _ _ T) as HT.
  destruct (uip_conv _ _ _ _ HP ltac:(lia) Hf k u (tc_u _ _ _ _ _ _ _ _ _ _ _ _ HT)) as [U1 U2].
  assert (ND : NoDup (map vidx V)).
  { rewrite (map_ext vidx (fun x => vidx (neg x))) by (intro x; symmetry; apply vidx_neg). rewrite <- (map_map neg vidx).
    eapply vidx_cons_nodup; [apply (pi_vr _ _ _ _ HP)| |].
    - apply FinFun.Injective_map_NoDup; [|apply HT]. intros x y Exy. rewrite <- (neg_neg x), <- (neg_neg y). congruence.
    - intros y Hy. apply in_map_iff in Hy as (x & <- & Hx). apply (tc_in _ _ _ _ _ _ _ _ _ _ _ _ HT); auto. }
  destruct (bumps_exact inc V (se_vsids se) v1) as (A1 & A2 & A3); auto.
  { apply (cb_hs _ _ HC). }
  { intros i b Eb _. eauto. }
  { apply HT. }
  assert (D : vsids_decay v1 = mkVsids (vs_activity v1) (f32_mul inc INVERSE_DECAY)) by (unfold vsids_decay; rewrite A1, Hr2; auto).
  pose proof (at_val _ _ _ _ _ _ _ _ _ _ _ _ _ _ _ _ _ _ _ _ T) as Tv. rewrite (at_inc _ _ _ _ _ _ _ _ _ _ _ _ _ _ _ _ _ _ _ _ T), Tv, D.
  cbn [vs_activity vs_increment]. split; auto. split; auto. exists cl, k. split; auto. split; auto.
  assert (Iv : forall v, involved_var p1 cl k v <-> In v (map vidx V)).
  { intro v. rewrite in_map_iff. unfold involved_var. split; intros (x & X1 & X2); exists x.
    - rewrite (tc_v _ _ _ _ _ _ _ _ _ _ _ _ HT), <- (involved_met _ _ _ _ HP ltac:(lia) Hf). rewrite vidx_half. auto.
    - rewrite (tc_v _ _ _ _ _ _ _ _ _ _ _ _ HT), <- (involved_met _ _ _ _ HP ltac:(lia) Hf) in X2. rewrite vidx_half in X1. auto. }
  intros v b Eb. rewrite Iv. apply A3. auto.
Qed.

(** ** C56 *)
Lemma levels_in n es p ls k : PI n es p -> (forall l, In l ls -> assigned (t_steps (p_trail p)) l) ->
  (In k (levels (t_steps (p_trail p)) ls) <-> assigned_at p ls k).
Proof.
  intros HP Hl. pose proof (pi_vr _ _ _ _ HP) as HVR. unfold levels, assigned_at. rewrite nodup_In, in_map_iff. split.
  - intros (l & <- & Hi). exists l. split; auto. unfold vlev. destruct (inb_spec l (slits (t_steps (p_trail p)))) as [I|I].
    + left. apply (true_at_slev _ _ _ HP). auto.
    + right. apply (true_at_slev _ _ _ HP). split; auto. destruct (Hl l Hi); auto. contradiction.
  - intros (l & Hi & T). exists l. split; auto. unfold vlev. rewrite !(true_at_slev _ _ _ HP) in T.
    destruct (inb_spec l (slits (t_steps (p_trail p)))) as [I|I]; destruct T as [[T1 T2]|[T1 T2]]; auto; [|contradiction].
    exfalso. eapply VR_cons; eauto.
Qed.
Lemma levels_bound ss ls : length (levels ss ls) <= length ls.
Proof. rewrite <- (map_length (vlev ss) ls). apply NoDup_incl_length; [apply NoDup_nodup|]. intros k Hk. unfold levels in Hk. rewrite nodup_In in Hk. auto. Qed.
Lemma bumped_fields ss h ls : lh_ok h -> (N.of_nat (length ls) < 4294967296)%N ->
  let h' := bumped ss h ls in
  lh_redundant h' = lh_redundant h /\ lh_protected h' = lh_protected h /\ lh_search_pos h' = lh_search_pos h /\
  lh_used h' = N.min (lh_used h + 1) 3 /\ lh_glue h' = N.min (N.of_nat (length (levels ss ls))) 63.
Proof.
  intros Ho HL h'. assert (L : (N.of_nat (length (levels ss ls)) < 4294967296)%N) by (pose proof (levels_bound ss ls); lia).
  unfold h', bumped. cbv zeta. set (g := N.of_nat (length (levels ss ls))) in *. assert (Hg := lh_ok_set_glue h g Ho).
  pose proof (lh_used_le h) as Lu. rewrite redundant_set_used, protected_set_used, glue_set_used by auto.
  rewrite used_set_glue by auto. rewrite used_set_used by (auto; lia).
  rewrite redundant_set_glue, protected_set_glue, glue_set_glue by auto. auto.
Qed.

Theorem clause_bumps select dbg F cx se cx1 p1 c cx2 an p2 cb :
  select_ok (fun _ _ => True) select -> visited select dbg F cx se ->
  propagate dbg cx (se_prop se) = Ret (cx1, p1, Some c) -> decision_level (p_trail p1) <> 0 ->
  analyze_conflict dbg (bump_conflicts cx1) (se_analysis se) p1 c (search_cb se) = Ret (cx2, an, p2, cb) ->
  exists cl k, conflict_lits (p_long p1) c = Ret cl /\ first_uip p1 cl k /\
  forall r h ls, clause_at p1 r h ls -> exists h', clause_at p2 r h' ls /\
    (* only the usage counter and the glue of the clauses used may change *)
    (~ used_clause p1 c cl k r -> h' = h) /\
    lh_redundant h' = lh_redundant h /\ lh_protected h' = lh_protected h /\ lh_search_pos h' = lh_search_pos h /\
    (used_clause p1 c cl k r -> lh_used h' = N.min (lh_used h + 1) 3 /\
       exists ks, lists nat ks (assigned_at p1 ls) /\ lh_glue h' = N.min (N.of_nat (length ks)) 63).
Proof.
  intros Hs HV E Hd EA. destruct (analysis_state _ _ _ _ _ _ _ _ _ _ _ _ Hs HV E Hd EA)
    as (es & cl & HP & HC & Ecl & Hf & es1 & es' & h & a & rest & r & level & target & Z & v1 & der & u & k & V & B & T).
  pose proof (at_tr _ _ _ _ _ _ _ _ _ _ _ _ _ _ _ _ _ _ _ _ T) as HT.
  destruct (uip_conv _ _ _ _ HP ltac:(lia) Hf k u (tc_u _ _ _ _ _ _ _ _ _ _ _ _ HT)) as [U1 U2].
  exists cl, k. split; auto. split; auto. intros r0 h0 ls Hat. apply (clause_at_iff _ _ _ _ _ _ HP) in Hat as [Hi Hne].
  pose proof (az_pi _ _ _ _ _ _ _ _ _ _ _ _ _ _ _ _ _ _ Z) as HP2.
  assert (Hin : forall h', In (r0, h', ls) es1 -> clause_at p2 r0 h' ls).
  { intros h' Hi'. apply (clause_at_iff _ _ _ _ _ _ HP2). split; auto. pose proof (az_db _ _ _ _ _ _ _ _ _ _ _ _ _ _ _ _ _ _ Z) as D.
    unfold db_add in D. destruct rest as [|b [|b2 rest]]; destruct D as [D1 D2]; subst; auto. destruct D2 as (c2 & -> & _). apply in_or_app; auto. }
  assert (Hu : used_clause p1 c cl k r0 <-> In r0 B).
  { rewrite (tc_b _ _ _ _ _ _ _ _ _ _ _ _ HT). apply (used_conv _ es p1 cl c HP ltac:(lia) Hf). }
  assert (Hb : In (bump_in (t_steps (p_trail p1)) B (r0, h0, ls)) es1).
  { rewrite (at_es _ _ _ _ _ _ _ _ _ _ _ _ _ _ _ _ _ _ _ _ T). unfold bump_all. apply in_map; auto. }
  unfold bump_in in Hb. cbn [le_ref le_hdr le_lits fst snd] in Hb. destruct (existsb (Nat.eqb r0) B) eqn:Ex.
  - apply existsb_ref in Ex. destruct (LR_ok _ _ (pi_lr _ _ _ _ HP) _ _ _ Hi) as (Ho & _ & Hc); unfold Drivers_Arena.clear in Hc.
    destruct (bumped_fields (t_steps (p_trail p1)) h0 ls Ho ltac:(lia)) as (B1 & B2 & B3 & B4 & B5).
    exists (bumped (t_steps (p_trail p1)) h0 ls). split; auto. split; [tauto|]. split; auto. split; auto. split; auto. intro Us. split; auto.
    eexists. split; [split; [apply NoDup_nodup|]|exact B5]. intro j. apply (levels_in _ _ _ _ _ HP).
    (* all literals of a used clause are assigned *)
    destruct Us as [->|(i & s & A1 & A2 & A3 & A4 & A5)].
    + cbn [conflict_lits] in Ecl. rewrite (LR_lits _ _ (pi_lr _ _ _ _ HP) _ _ _ Hi) in Ecl. inversion Ecl; subst. intros x Hx. right. apply Hf; auto.
    + pose proof (pi_ri _ _ _ _ HP i s A1) as R. rewrite A5 in R. destruct R as (h2 & rl & R1 & R2).
      destruct (LR_fun _ _ (pi_lr _ _ _ _ HP) _ _ _ _ _ Hi R1) as [_ ->]. intros x [<-|Hx]; [left; apply in_slits; eauto|]. right.
      eapply before_in; eauto.
  - exists h0. split; auto. assert (N : ~ In r0 B) by (rewrite <- existsb_ref, Ex; discriminate). repeat split; auto. tauto. tauto.
Qed.

(** ** C57 *)
(** If the learned clause has more than two literals, it is the only new long
    clause: learned, not protected, used once, with the number of levels of its
    false literals as glue. *)
Theorem learned_header select dbg F cx se cx1 p1 c cx2 an p2 cb :
  select_ok (fun _ _ => True) select -> visited select dbg F cx se ->
  propagate dbg cx (se_prop se) = Ret (cx1, p1, Some c) -> decision_level (p_trail p1) <> 0 ->
  analyze_conflict dbg (bump_conflicts cx1) (se_analysis se) p1 c (search_cb se) = Ret (cx2, an, p2, cb) ->
  exists ss s, t_steps (p_trail p2) = ss ++ [s] /\
    (forall r h ls, clause_at p2 r h ls -> (exists h0, clause_at p1 r h0 ls) \/ s_reason s = RLong r) /\
    (forall r, s_reason s = RLong r -> (forall h0 ls, ~ clause_at p1 r h0 ls) /\
       exists h rest ks, clause_at p2 r h (s_lit s :: rest) /\ 2 <= length rest /\
         lh_redundant h = true /\ lh_protected h = false /\ lh_used h = 1%N /\ lh_search_pos h = 0%N /\
         lists nat ks (fun j => exists x, In x rest /\ true_at p1 (neg x) j) /\
         lh_glue h = N.min (N.of_nat (length ks)) 63).
Proof.
  intros Hs HV E Hd EA. destruct (analysis_state _ _ _ _ _ _ _ _ _ _ _ _ Hs HV E Hd EA)
    as (es & cl & HP & HC & Ecl & Hf & es1 & es' & h & a & rest & r & level & target & Z & v1 & der & u & k & V & B & T).
  pose proof (az_pi _ _ _ _ _ _ _ _ _ _ _ _ _ _ _ _ _ _ Z) as HP2. pose proof (pi_tr _ _ _ _ HP) as HTr.
  pose proof (az_tg _ _ _ _ _ _ _ _ _ _ _ _ _ _ _ _ _ _ Z) as Etg. pose proof (az_f _ _ _ _ _ _ _ _ _ _ _ _ _ _ _ _ _ _ Z) as Hfr.
  pose proof (az_es _ _ _ _ _ _ _ _ _ _ _ _ _ _ _ _ _ _ Z) as HE.
  exists (firstn target (t_steps (p_trail p1))), (mkStep a level r). split; [apply Z|]. cbn [s_reason s_lit].
  pose proof (at_h _ _ _ _ _ _ _ _ _ _ _ _ _ _ _ _ _ _ _ _ T) as Hh.
  pose proof (az_db _ _ _ _ _ _ _ _ _ _ _ _ _ _ _ _ _ _ Z) as D. pose proof (az_rs _ _ _ _ _ _ _ _ _ _ _ _ _ _ _ _ _ _ Z) as RO.
  assert (Hold : forall r0 h0 ls, In (r0, h0, ls) es1 -> ls <> [] -> exists h1, clause_at p1 r0 h1 ls).
  { intros r0 h0 ls Hi Hne. destruct (ESH_in_rev _ _ _ _ _ HE Hi) as (h1 & Hi1 & _). exists h1. apply (clause_at_iff _ _ _ _ _ _ HP). auto. }
  destruct rest as [|b [|b2 rest]].
  - cbn [db_add reason_of] in *. destruct D as [-> _]. subst r. split; [|intros r0 Er; discriminate].
    intros r0 h0 ls Hat. apply (clause_at_iff _ _ _ _ _ _ HP2) in Hat as [Hi Hne]. eauto.
  - cbn [db_add reason_of] in *. destruct D as [-> _]. subst r. split; [|intros r0 Er; discriminate].
    intros r0 h0 ls Hat. apply (clause_at_iff _ _ _ _ _ _ HP2) in Hat as [Hi Hne]. eauto.
  - destruct Hh as (Hh & c2 & Er & Ees). destruct D as [_ (c3 & D1 & D2)].
    assert (c3 = c2) by (rewrite D1 in Ees; apply app_inj_tail in Ees as [_ Ees]; congruence). subst c3 r. remember (b :: b2 :: rest) as rest2 eqn:Er2.
    split.
    + intros r0 h0 ls Hat. apply (clause_at_iff _ _ _ _ _ _ HP2) in Hat as [Hi Hne]. rewrite Ees in Hi. apply in_app_or in Hi as [Hi|[Hi|[]]]; [eauto|].
      inversion Hi; auto.
    + intros r0 Q. inversion Q; subst r0. split.
      * intros h0 ls Hat. apply (clause_at_iff _ _ _ _ _ _ HP) in Hat as [Hi Hne]. destruct (ESH_in _ _ _ _ _ HE Hi) as (h1 & Hi1 & _).
        apply (D2 _ Hi1). reflexivity.
      * set (ks := levels (firstn target (t_steps (p_trail p1))) rest2) in *.
        assert (Eks : ks = levels (t_steps (p_trail p1)) rest2).
        { unfold ks, levels. f_equal. apply map_ext_in. intros x Hx. specialize (Hfr x Hx). unfold vlev.
          pose proof (proj1 (back_in _ _ _ _ HTr Etg (neg x)) Hfr) as [F1 F2].
          rewrite (proj2 (inb_false _ _)), (proj2 (inb_false _ _)).
          - apply back_slev; auto.
          - intro X. eapply VR_cons; [apply (pi_vr _ _ _ _ HP)|exact X|exact F1].
          - intro X. apply (back_in _ _ _ _ HTr Etg) in X as [X _]. eapply VR_cons; [apply (pi_vr _ _ _ _ HP)|exact X|exact F1]. }
        assert (Hfa : forall x, In x rest2 -> In (neg x) (slits (t_steps (p_trail p1)))).
        { intros x Hx. apply (back_in _ _ _ _ HTr Etg). auto. }
        exists h, rest2, ks. split; [apply (clause_at_iff _ _ _ _ _ _ HP2); split; [rewrite Ees; apply in_or_app; simpl; auto|discriminate]|].
        split; [subst rest2; cbn [length]; lia|]. split; [apply Z|]. split; [apply Z|].
        assert (L : (N.of_nat (length ks) < 4294967296)%N).
        { pose proof (levels_bound (firstn target (t_steps (p_trail p1))) rest2) as LB. fold ks in LB.
          destruct (LR_ok _ _ (pi_lr _ _ _ _ HP2) c2 h (a :: rest2)) as (_ & _ & Hc); [rewrite Ees; apply in_or_app; simpl; auto|]. unfold Drivers_Arena.clear in Hc.
          cbn [length] in Hc. lia. }
        pose proof lh_ok_new_learned as Ho. rewrite Hh, used_set_glue, glue_set_glue by auto. split; [reflexivity|]. split; [reflexivity|].
        split; [|reflexivity]. split; [rewrite Eks; apply NoDup_nodup|]. intro j. rewrite Eks.
        rewrite (levels_in _ _ _ _ _ HP) by (intros x Hx; right; auto). unfold assigned_at. split.
        -- intros (x & Hx & [X|X]); exists x; split; auto. exfalso. apply (true_at_slev _ _ _ HP) in X as [X _].
           eapply VR_cons; [apply (pi_vr _ _ _ _ HP)|exact X|apply Hfa; auto].
        -- intros (x & Hx & X). eauto.
Qed.

(** ** Examples
    The first two conflicts of the pigeon hole formula with four pigeons: the
    hypotheses hold (see [php4_visited]), the second analysis resolves with four
    long clauses, and the first learns a long clause. *)
Definition analysis_at (F : list (list N)) (k : nat) : option (prop * prop * analysis * callbacks * vsids) :=
  let se := sta_search (so_state (at_step F k)) in
  match propagate true (so_ctx (at_step F k)) (se_prop se) with
  | Ret (cx1, p1, Some c) =>
      match analyze_conflict true (bump_conflicts cx1) (se_analysis se) p1 c (search_cb se) with
      | Ret (cx2, an, p2, cb) => Some (p1, p2, an, cb, se_vsids se)
      | _ => None
      end
  | _ => None
  end.
Example conflict_bumps_example :
  match analysis_at php4 5 with
  | Some (p1, p2, an, cb, v) =>
      decision_level (p_trail p1) = 3 /\ an_derived an = [18; 1]%N /\
      SFltb RESCALE_LIMIT (f32_mul (vs_increment v) INVERSE_DECAY) = false /\
      h_values (vs_activity v) = map f32_to_bits [F32_ONE; F32_ONE; F32_ONE; F32_ONE; F32_ONE; F32_ONE; S754_zero false; F32_ONE;
        S754_zero false; S754_zero false; S754_zero false; S754_zero false] /\
      h_values (vs_activity (cb_vsids cb)) = [1073962577; 1073962577; 1073962577; 1073962577; 1073962577; 1073962577; 1065794722; 1073962577;
        1065794722; 1065794722; 0; 0]%N
  | None => False
  end.
Proof. vm_compute. repeat split. Qed.
Example clause_bumps_example :
  match analysis_at php4 5 with
  | Some (p1, p2, an, cb, v) =>
      forall r, In r [0; 6; 12; 24] -> exists h h' ls, clause_at p1 r h ls /\ clause_at p2 r h' ls /\ lh_used h' = (lh_used h + 1)%N
  | None => False
  end.
Proof.
  vm_compute. intros r [<-|[<-|[<-|[<-|[]]]]]; do 3 eexists; (split; [repeat split; discriminate|]); (split; [repeat split; discriminate|reflexivity]).
Qed.
Example learned_header_example :
  match analysis_at php4 4 with
  | Some (p1, p2, an, cb, v) => exists h, clause_at p2 24 h [14; 7; 1]%N /\ lh_glue h = 2%N /\ lh_used h = 1%N /\ lh_redundant h = true
  | None => False
  end.
Proof. vm_compute. eexists. split; [repeat split; discriminate|]. repeat split. Qed.
Print Assumptions first_uip_exact. Print Assumptions conflict_bumps. Print Assumptions conflict_activities.
Print Assumptions clause_bumps. Print Assumptions learned_header.
