(** C19, C21-C23: conflict analysis, in every state a search passes through. *)
From Coq Require Import NArith List Bool Arith Lia Permutation Sorted ZifyN ZifyNat ZifyBool.
From Verif Require Import Model_Base Model_Lit Model_PartialAssignment Model_Header Model_Arena Model_Prop
  Model_Heap Model_Vsids Model_Analysis Model_Luby Model_Solver Spec Proof_Base Proof_PA Proof_Lit
  Proof_Long Proof_Trail Proof_Backtrack Proof_Inv Proof_Propagate Proof_Gc Proof_Glue Proof_Analysis Proof_Minimize Proof_Learn
  Proof_DB Proof_Solver Proof_Search Proof_Solve Proof_Add
  Drivers_Solver Drivers_Search Proof_Main Proof_Visited Examples_Solver Prop_Prop.
Import ListNotations.

(** What [propagate] leaves for the analysis. *)
Lemma conflict_state select dbg F cx se cx1 p1 c :
  select_ok (fun _ _ => True) select -> visited select dbg F cx se ->
  propagate dbg cx (se_prop se) = Ret (cx1, p1, Some c) ->
  exists es, PI (cnf_vars F) es p1 /\ AN (se_analysis se) /\ CB (cnf_vars F) (search_cb se) /\ conf_ok (cnf_vars F) es p1 c.
Proof.
  intros Hs HV E. destruct (visited_SI _ _ _ _ _ Hs HV) as (K & L & st & es & HK & H).
  destruct (SI_propagate dbg _ _ _ _ _ _ _ _ H) as (cx2 & p2 & es1 & r1 & E1 & H1 & _ & _ & HR).
  rewrite E in E1. inversion E1; subst cx2 p2 r1. destruct HR as [HC _]. exists es1.
  split; [apply (s_pi _ _ _ _ _ _ _ _ H1)|]. split; [apply H|]. split; [apply H|auto].
Qed.

(** ** C19 *)
Theorem learned_asserting select dbg F cx se cx1 p1 c cx2 an p2 cb :
  select_ok (fun _ _ => True) select -> visited select dbg F cx se ->
  propagate dbg cx (se_prop se) = Ret (cx1, p1, Some c) -> decision_level (p_trail p1) <> 0 ->
  analyze_conflict dbg (bump_conflicts cx1) (se_analysis se) p1 c (search_cb se) = Ret (cx2, an, p2, cb) ->
  exists a rest k r,
    (* the learned clause, as logged and as recorded for its first literal *)
    cx_proof cx2 = option_map (fun st => st ++ [PAdd (a :: rest)]) (cx_proof cx) /\
    reason_rest p2 (mkStep a k r) rest /\ (rest <> [] -> holds_clause p2 (a :: rest)) /\ NoDup (a :: rest) /\
    (* the new trail *)
    k < decision_level (p_trail p1) /\ decision_level (p_trail p2) = k /\
    t_steps (p_trail p2) = filter (fun s => s_level s <=? k) (t_steps (p_trail p1)) ++ [mkStep a k r] /\
    (* before, the first literal was false since the conflict level *)
    true_at p1 (neg a) (decision_level (p_trail p1)) /\
    (* the other literals are false since levels up to [k], the second since [k] *)
    (forall x, In x rest -> exists k', k' <= k /\ true_at p2 (neg x) k') /\
    match rest with [] => k = 0 | b :: _ => true_at p2 (neg b) k end.
Proof.
  intros Hs HV E Hd EA. destruct (conflict_state _ _ _ _ _ _ _ _ Hs HV E) as (es & HP & HA & HC & Hc).
  assert (Ecx : cx1 = cx).
  { destruct (visited_SI _ _ _ _ _ Hs HV) as (K & L & st & es0 & HK & H).
    destruct (SI_propagate dbg _ _ _ _ _ _ _ _ H) as (cx3 & p3 & es1 & r1 & E1 & H1 & _ & _ & HR).
    rewrite E in E1. inversion E1; subst. tauto. }
  subst cx1.
  destruct (analyze_ok _ es p1 dbg (bump_conflicts cx) (se_analysis se) c (search_cb se) HP ltac:(lia) HA HC Hc) as (cl & Ecl & [[E1 _]|R]);
    [rewrite EA in E1; discriminate|].
  destruct R as (cx3 & an3 & p3 & cb3 & es1 & es' & h & a & rest & r & k & target & E3 & Z). rewrite EA in E3. inversion E3; subst cx3 an3 p3 cb3.
  pose proof (az_pi _ _ _ _ _ _ _ _ _ _ _ _ _ _ _ _ _ _ Z) as HP2. pose proof (pi_tr _ _ _ _ HP) as HT.
  pose proof (az_ss _ _ _ _ _ _ _ _ _ _ _ _ _ _ _ _ _ _ Z) as Ess. pose proof (az_tg _ _ _ _ _ _ _ _ _ _ _ _ _ _ _ _ _ _ Z) as Etg.
  pose proof (az_rs _ _ _ _ _ _ _ _ _ _ _ _ _ _ _ _ _ _ Z) as RO. pose proof (az_f _ _ _ _ _ _ _ _ _ _ _ _ _ _ _ _ _ _ Z) as Hf.
  destruct (filter_levels _ _ _ _ HT Etg) as [F1 F2].
  assert (Hin : In (mkStep a k r) (t_steps (p_trail p2))) by (rewrite Ess; apply in_or_app; right; left; auto).
  assert (HR : reason_rest p2 (mkStep a k r) rest).
  { apply (rsn_reason _ _ _ HP2); auto. unfold rsn; cbn [s_reason s_lit]. destruct rest as [|x [|y rest]]; cbn [reason_of] in RO; subst; auto.
    destruct RO as (c0 & h0 & -> & RO). eauto. }
  assert (HT2 : forall x, In x rest -> true_at p2 (neg x) (slev (t_steps (p_trail p1)) (neg x)) /\ slev (t_steps (p_trail p1)) (neg x) <= k).
  { intros x Hx. specialize (Hf x Hx). pose proof (proj1 (back_in _ _ _ _ HT Etg (neg x)) Hf) as [B1 B2]. split; auto.
    apply in_slits in Hf as (i & s & Ei & Es). rewrite nth_error_firstn in Ei. destruct (Nat.ltb_spec i target); [|discriminate].
    exists s. split; [rewrite Ess; apply in_or_app; left; apply nth_error_In with i; rewrite nth_error_firstn; destruct (Nat.ltb_spec i target); [auto|lia]|].
    split; auto. rewrite <- Es. symmetry. eapply tr_slev; eauto. }
  exists a, rest, k, r. split.
  { rewrite (az_cx _ _ _ _ _ _ _ _ _ _ _ _ _ _ _ _ _ _ Z). cbn [cx_proof cx_log bump_conflicts cx_with]. destruct (cx_proof cx); reflexivity. }
  split; auto. split.
  { intros Hne. unfold reason_rest in HR; cbn [s_reason s_lit] in HR. destruct r as [| |b|c0]; [contradiction|contradiction|destruct HR as [-> HR]; exact HR|].
    left. exists c0. split; [exact HR|discriminate]. }
  split; [apply Z|]. split; [apply Z|]. split.
  { unfold decision_level. rewrite (az_ds _ _ _ _ _ _ _ _ _ _ _ _ _ _ _ _ _ _ Z), firstn_length.
    pose proof (az_lt _ _ _ _ _ _ _ _ _ _ _ _ _ _ _ _ _ _ Z) as Lt. unfold decision_level in Lt. lia. }
  split; [rewrite Ess, F1; reflexivity|]. split; [apply (true_at_slev _ _ _ HP); split; apply Z|].
  split; [intros x Hx; destruct (HT2 x Hx); eauto|].
  pose proof (az_b _ _ _ _ _ _ _ _ _ _ _ _ _ _ _ _ _ _ Z) as Hb. destruct rest as [|b rest]; auto. rewrite <- Hb. apply HT2. left; auto.
Qed.
(** Analysis succeeds, except if the arena is full. *)
Theorem analyze_succeeds select dbg F cx se cx1 p1 c :
  select_ok (fun _ _ => True) select -> visited select dbg F cx se ->
  propagate dbg cx (se_prop se) = Ret (cx1, p1, Some c) -> decision_level (p_trail p1) <> 0 ->
  (exists cx2 an p2 cb, analyze_conflict dbg (bump_conflicts cx1) (se_analysis se) p1 c (search_cb se) = Ret (cx2, an, p2, cb)) \/
  (analyze_conflict dbg (bump_conflicts cx1) (se_analysis se) p1 c (search_cb se) = Panic PFull /\
   (2 ^ 32 <= N.of_nat (length (a_buffer (p_long p1))))%N).
Proof.
  intros Hs HV E Hd. destruct (conflict_state _ _ _ _ _ _ _ _ Hs HV E) as (es & HP & HA & HC & Hc).
  destruct (analyze_ok _ es p1 dbg (bump_conflicts cx1) (se_analysis se) c (search_cb se) HP ltac:(lia) HA HC Hc) as (cl & Ecl & [[E1 Hf]|R]).
  - right. split; auto. unfold Proof_Size.afull, Proof_Size.awords in Hf. unfold LITIDX_MAX in Hf. change (2 ^ 32)%N with 4294967296%N. lia.
  - left. destruct R as (cx3 & an3 & p3 & cb3 & es1 & es' & h & a & rest & r & k & target & E3 & Z). eauto.
Qed.

(** ** C21 *)
Lemma closed_follows n es p A : PI n es p -> closed es (t_steps (p_trail p)) (follows p A).
Proof.
  intros HP i s rl E R H. eapply fo_reason; [eapply nth_error_In; eauto| |exact H]. apply (rsn_reason _ _ _ HP); auto. eapply nth_error_In; eauto.
Qed.
(** The first-UIP clause: its last literal is the only one of the conflict level,
    and falsifying it falsifies the conflict clause over the recorded reasons. *)
Theorem first_uip_clause select dbg F cx se cx1 p1 c :
  select_ok (fun _ _ => True) select -> visited select dbg F cx se ->
  propagate dbg cx (se_prop se) = Ret (cx1, p1, Some c) -> decision_level (p_trail p1) <> 0 ->
  exists p2 an2 cb2 der a cl, derive_1uip_clause (se_analysis se) p1 c (search_cb se) = Ret (p2, an2, cb2) /\
    an_derived an2 = der ++ [a] /\ NoDup (der ++ [a]) /\
    true_at p1 (neg a) (decision_level (p_trail p1)) /\
    (forall x, In x der -> exists k, 1 <= k < decision_level (p_trail p1) /\ true_at p1 (neg x) k) /\
    conflict_lits (p_long p1) c = Ret cl /\ (forall x, In x cl -> follows p1 (map neg (der ++ [a])) (neg x)).
Proof.
  intros Hs HV E Hd. destruct (conflict_state _ _ _ _ _ _ _ _ Hs HV E) as (es & HP & HA & HC & Hc).
  destruct (derive_ok _ es p1 (se_analysis se) c (search_cb se) HP ltac:(lia) HA HC Hc) as (cl & p2 & es2 & an2 & cb2 & der & u & E2 & Ecl & HS & HCB & HA2 & HG & Eder & HD).
  exists p2, an2, cb2, der, (neg (s_lit u)), cl. split; auto. split; auto. destruct (do_u _ _ _ _ _ HD) as (iu & Eu & Lu).
  assert (HTu : true_at p1 (s_lit u) (decision_level (p_trail p1))).
  { exists u. split; [eapply nth_error_In; eauto|]. split; auto. apply HD. }
  assert (Hr : forall x, In x der -> exists k, 1 <= k < decision_level (p_trail p1) /\ true_at p1 (neg x) k).
  { intros x Hx. destruct (do_rest _ _ _ _ _ HD x Hx) as [X1 X2]. eexists. split; [exact X2|]. apply (true_at_slev _ _ _ HP). auto. }
  split; [|split; [rewrite neg_neg; auto|split; [auto|split; [auto|]]]].
  - apply NoDup_app_iff. split; [apply HD|]. split; [constructor; [tauto|constructor]|]. intros x Hx [<-|[]].
    destruct (Hr _ Hx) as (k & Hk & HTk). rewrite neg_neg in HTk. apply (true_at_slev _ _ _ HP) in HTk, HTu. lia.
  - intros x Hx. apply (do_imp _ _ _ _ _ HD (follows p1 (map neg (der ++ [neg (s_lit u)])))); auto; [eapply closed_follows; eauto|]. intros y Hy. constructor. apply in_map; auto.
Qed.
Theorem minimize_sound select dbg F cx se cx1 p1 c p2 an2 cb2 der a k an3 :
  select_ok (fun _ _ => True) select -> visited select dbg F cx se ->
  propagate dbg cx (se_prop se) = Ret (cx1, p1, Some c) -> decision_level (p_trail p1) <> 0 ->
  derive_1uip_clause (se_analysis se) p1 c (search_cb se) = Ret (p2, an2, cb2) -> an_derived an2 = der ++ [a] ->
  minimize_derived_clause an2 p2 = Ret (k, an3) ->
  exists kept removed, an_derived an3 = a :: kept /\ Permutation der (kept ++ removed) /\
    (forall x, In x removed -> follows p2 (map neg kept) (neg x)).
Proof.
  intros Hs HV E Hd ED Eder EM. destruct (conflict_state _ _ _ _ _ _ _ _ Hs HV E) as (es & HP & HA & HC & Hc).
  destruct (derive_ok _ es p1 (se_analysis se) c (search_cb se) HP ltac:(lia) HA HC Hc) as (cl & p3 & es2 & an4 & cb3 & der' & u & E2 & Ecl & HS & HCB & HA2 & HG & Eder' & HD).
  rewrite ED in E2. inversion E2; subst p3 an4 cb3. rewrite Eder in Eder'. apply app_inj_tail in Eder' as [<- ->].
  unfold minimize_derived_clause in EM. destruct (do_u _ _ _ _ _ HD) as (iu & Eu & Lu).
  pose proof (PS_trail _ _ _ _ _ HS) as Et. pose proof (ps_pi _ _ _ _ _ HS) as HP2.
  destruct der as [|x0 der0].
  - rewrite Eder in EM. cbn in EM. inversion EM; subst. exists [], []. split; auto. split; auto. intros x [].
  - rewrite Eder, app_length in EM. cbn [length] in EM. destruct (Nat.ltb_spec 1 (S (length der0) + 1)) as [_|G]; [|lia]. remember (x0 :: der0) as der eqn:Ed0.
    destruct (minimize_ok _ es2 p2 HP2 (an_min an2) der (s_lit u)) as (level & b & kept & rem & m' & Em & G1 & G2 & G3 & G4 & G5 & G6 & _).
    + apply HA2.
    + subst; discriminate.
    + apply HD.
    + rewrite Et. apply HD.
    + rewrite Et. apply in_slits. eauto.
    + rewrite Et. rewrite (tr_slev _ _ (pi_tr _ _ _ _ HP) _ _ Eu). apply HD.
    + rewrite Em in EM. cbn [bind] in EM. inversion EM; subst. exists (b :: kept), rem. split; auto. split; auto.
      intros x Hx. apply (G6 x) with (U := follows p2 (map neg (b :: kept))); [eapply Permutation_in; [apply Permutation_sym; exact G2|right; apply in_or_app; auto]|eapply closed_follows; eauto|].
      intros y Hy. constructor. apply in_map; auto.
Qed.

(** ** C65 *)
Lemma follows_imp n es p K l : PI n es p -> follows p (map neg K) l -> imp es p K l.
Proof.
  intros HP H. induction H as [l Hl|s rest Hs R _ IH].
  - apply in_map_iff in Hl as (x & <- & Hx). apply imp_in; auto.
  - pose proof Hs as Hs'. apply In_nth_error in Hs' as [i Hi]. eapply imp_reason; eauto. apply (rsn_reason _ _ _ HP); auto.
Qed.
(** Minimization leaves nothing to remove: no literal of the minimized clause
    follows, over the recorded reasons, from the falsification of the others. *)
Theorem minimize_complete select dbg F cx se cx1 p1 c p2 an2 cb2 k an3 :
  select_ok (fun _ _ => True) select -> visited select dbg F cx se ->
  propagate dbg cx (se_prop se) = Ret (cx1, p1, Some c) -> decision_level (p_trail p1) <> 0 ->
  derive_1uip_clause (se_analysis se) p1 c (search_cb se) = Ret (p2, an2, cb2) ->
  minimize_derived_clause an2 p2 = Ret (k, an3) ->
  forall x, In x (an_derived an3) ->
    ~ follows p2 (map neg (remove N.eq_dec x (an_derived an3))) (neg x).
Proof.
  intros Hs HV E Hd ED EM. destruct (conflict_state _ _ _ _ _ _ _ _ Hs HV E) as (es & HP & HA & HC & Hc).
  destruct (derive_ok _ es p1 (se_analysis se) c (search_cb se) HP ltac:(lia) HA HC Hc) as (cl & p3 & es2 & an4 & cb3 & der & u & E2 & Ecl & HS & HCB & HA2 & HG & Eder & HD).
  rewrite ED in E2. inversion E2; subst p3 an4 cb3.
  unfold minimize_derived_clause in EM. destruct (do_u _ _ _ _ _ HD) as (iu & Eu & Lu).
  pose proof (PS_trail _ _ _ _ _ HS) as Et. pose proof (ps_pi _ _ _ _ _ HS) as HP2.
  intros x Hx HF. apply (follows_imp _ _ _ _ _ HP2) in HF. revert x Hx HF.
  destruct der as [|x0 der0].
  - rewrite Eder in EM. cbn in EM. inversion EM; subst. rewrite Eder. intros x [<-|[]]. rewrite neg_neg. cbn [remove app].
    destruct (N.eq_dec _ _); [|congruence]. apply (no_imp_first _ _ _ HP2 [] iu u); [rewrite Et; auto| |intros ? ? []].
    rewrite (do_lev _ _ _ _ _ HD). lia.
  - rewrite Eder, app_length in EM. cbn [length] in EM. destruct (Nat.ltb_spec 1 (S (length der0) + 1)) as [_|G]; [|lia]. remember (x0 :: der0) as der eqn:Ed0.
    destruct (minimize_ok _ es2 p2 HP2 (an_min an2) der (s_lit u)) as (level & b & kept & rem & m' & Em & _ & _ & _ & _ & _ & _ & G7).
    + apply HA2.
    + subst; discriminate.
    + apply HD.
    + rewrite Et. apply HD.
    + rewrite Et. apply in_slits. eauto.
    + rewrite Et. rewrite (tr_slev _ _ (pi_tr _ _ _ _ HP) _ _ Eu). apply HD.
    + rewrite Em in EM. cbn [bind] in EM. inversion EM; subst. exact G7.
Qed.

(** ** C22 *)
Theorem scratch_clean select dbg F cx se :
  select_ok (fun _ _ => True) select -> visited select dbg F cx se ->
  let an := se_analysis se in
  (forall b, In b (an_current an) -> b = false) /\ (forall b, In b (an_glue_flags an) -> b = false) /\
  an_count an = 0 /\ mi_clean (an_min an) = [] /\
  (forall o, In o (mi_cache (an_min an)) -> o = None) /\
  (forall i o, 1 <= i -> nth_error (mi_first (an_min an)) i = Some o -> o = None).
Proof.
  intros Hs HV an. destruct (visited_SI _ _ _ _ _ Hs HV) as (K & L & st & es & HK & H).
  destruct (s_an _ _ _ _ _ _ _ _ H) as [A B C (D1 & D2 & D3)].
  assert (G : forall l, allf l -> forall b, In b l -> b = false).
  { intros l Hl b Hb. apply In_nth_error in Hb as [i Hi]. destruct b; auto. destruct (Hl i Hi). }
  split; [apply G; auto|]. split; [apply G; auto|]. split; auto. split; auto. split.
  - intros o Ho. apply In_nth_error in Ho as [i Hi]. destruct o; auto. destruct (D2 i b Hi).
  - intros i o Hi E. destruct o; auto. destruct (D3 i n Hi E).
Qed.

(** ** C23 *)
Theorem glue_counts_levels select dbg F cx se ls tmp :
  select_ok (fun _ _ => True) select -> visited select dbg F cx se ->
  (forall l, In l ls -> is_true (se_prop se) l \/ is_false (se_prop se) l) ->
  (forall b, In b tmp -> b = false) -> decision_level (p_trail (se_prop se)) < length tmp ->
  exists ks, NoDup ks /\
    (forall k, In k ks <-> exists l, In l ls /\ (true_at (se_prop se) l k \/ true_at (se_prop se) (neg l) k)) /\
    compute_glue (p_trail (se_prop se)) ls tmp = Ret (length ks, tmp).
Proof.
  intros Hs HV Hl Ht Hlen. destruct (visited_SI _ _ _ _ _ Hs HV) as (K & L & st & es & HK & H).
  pose proof (s_pi _ _ _ _ _ _ _ _ H) as HP. pose proof (pi_vr _ _ _ _ HP) as HVR.
  exists (levels (t_steps (p_trail (se_prop se))) ls). split; [apply NoDup_nodup|]. split.
  - intro k. unfold levels. rewrite nodup_In, in_map_iff. split.
    + intros (l & <- & Hi). exists l. split; auto. unfold vlev. destruct (inb_spec l (slits (t_steps (p_trail (se_prop se))))) as [I|I].
      * left. apply (true_at_slev _ _ _ HP). auto.
      * right. apply (true_at_slev _ _ _ HP). split; auto. destruct (Hl l Hi); auto. contradiction.
    + intros (l & Hi & T). exists l. split; auto. unfold vlev. rewrite !(true_at_slev _ _ _ HP) in T.
      destruct (inb_spec l (slits (t_steps (p_trail (se_prop se))))) as [I|I]; destruct T as [[T1 T2]|[T1 T2]]; auto; [|contradiction].
      exfalso. eapply VR_cons; eauto.
  - apply compute_glue_ok with (n := cnf_vars F); auto; [apply HP|]. intros i E. apply nth_error_In, Ht in E. discriminate.
Qed.

(** ** Examples *)
Example learned_asserting_example :
  match propagate true (so_ctx (at_step php4 7)) (prop_at php4 7) with
  | Ret (cx1, p1, Some c) =>
      match analyze_conflict true (bump_conflicts cx1) (se_analysis (sta_search (so_state (at_step php4 7)))) p1 c
              (search_cb (sta_search (so_state (at_step php4 7)))) with
      | Ret (cx2, _, p2, _) => cx_proof cx2 = Some [PAdd [14; 7; 1]; PAdd [18; 1]; PAdd [2; 19]]%N
      | _ => False
      end
  | _ => False
  end.
Proof. vm_compute. reflexivity. Qed.
(** A run in which minimization removes a literal: of the first-UIP clause
    [2; 1; 7] only [7; 1] is learned, because the reason of 3 is [1; 3]. *)
Definition min3 : list (list N) := [[1; 3]; [7; 5; 1]; [7; 4; 2]]%N.
Example min3_visited : visited select_sort true min3 (so_ctx (at_step min3 2)) (sta_search (so_state (at_step min3 2))).
Proof. apply vis_solver, reach_after, reach_built, built_added; vm_compute; reflexivity. Qed.
Example minimize_sound_example :
  let se := sta_search (so_state (at_step min3 2)) in
  match propagate true (so_ctx (at_step min3 2)) (se_prop se) with
  | Ret (_, p1, Some c) =>
      match derive_1uip_clause (se_analysis se) p1 c (search_cb se) with
      | Ret (p2, an2, _) => an_derived an2 = [2; 1; 7]%N /\
          match minimize_derived_clause an2 p2 with
          | Ret (k, an3) => an_derived an3 = [7; 1]%N
          | _ => False
          end
      | _ => False
      end
  | _ => False
  end.
Proof. vm_compute. split; reflexivity. Qed.
(** Of its learned clause [7; 1] neither literal can go. *)
Example min3_conflict_level :
  match propagate true (so_ctx (at_step min3 2)) (prop_at min3 2) with
  | Ret (_, p1, Some c) => decision_level (p_trail p1) = 2
  | _ => False
  end.
Proof. vm_compute. reflexivity. Qed.
Example minimize_complete_example :
  let se := sta_search (so_state (at_step min3 2)) in
  match propagate true (so_ctx (at_step min3 2)) (se_prop se) with
  | Ret (_, p1, Some c) =>
      match derive_1uip_clause (se_analysis se) p1 c (search_cb se) with
      | Ret (p2, an2, _) => ~ follows p2 [neg 1] (neg 7) /\ ~ follows p2 [neg 7] (neg 1)
      | _ => False
      end
  | _ => False
  end%N.
Proof.
  pose proof minimize_sound_example as X. pose proof min3_conflict_level as D. unfold prop_at in D. cbv zeta in *.
  pose proof (minimize_complete select_sort true min3 (so_ctx (at_step min3 2)) (sta_search (so_state (at_step min3 2)))) as T.
  destruct (propagate _ _ _) as [[[cx1 p1] [c|]]| |]; try contradiction.
  destruct (derive_1uip_clause _ _ _ _) as [[[p2 an2] cb2]| |] eqn:Ed; try contradiction. destruct X as [_ X].
  destruct (minimize_derived_clause an2 p2) as [[k an3]| |] eqn:Em; try contradiction.
  specialize (T cx1 p1 c p2 an2 cb2 k an3 any_select_sort min3_visited eq_refl ltac:(lia) Ed Em). rewrite X in T.
  split; [apply (T 7%N)|apply (T 1%N)]; simpl; auto.
Qed.
Example glue_counts_levels_example :
  map s_level (t_steps (p_trail (prop_at php4 4))) = [1; 2; 3; 3; 3; 3; 4] /\
  compute_glue (p_trail (prop_at php4 4)) [23; 21; 18; 7]%N (repeat false 5) = Ret (2, repeat false 5).
Proof. vm_compute. split; reflexivity. Qed.
Print Assumptions learned_asserting. Print Assumptions analyze_succeeds. Print Assumptions first_uip_clause.
Print Assumptions minimize_sound. Print Assumptions minimize_complete. Print Assumptions scratch_clean. Print Assumptions glue_counts_levels.
