(** C81: conflict analysis with clause minimization switched off. *)
From Coq Require Import NArith List Bool Arith Lia Permutation Sorted ZifyN ZifyNat ZifyBool.
From Verif Require Import Model_Base Model_Lit Model_PartialAssignment Model_Header Model_Arena Model_Prop
  Model_Heap Model_Vsids Model_Analysis Model_Luby Model_Solver Model_Prepare Spec Proof_Base Proof_PA Proof_Lit
  Proof_Long Proof_Trail Proof_Backtrack Proof_Inv Proof_Propagate Proof_Gc Proof_Glue Proof_Analysis Proof_Minimize Proof_Learn
  Proof_DB Proof_Solver Proof_Search Proof_Solve Proof_Add
  Drivers_Solver Drivers_Search Proof_Main Proof_Visited Examples_Solver Prop_Prop Prop_Analysis Proof_Prepare.
Import ListNotations.

(** Switched on, it is the analysis of the other theorems. *)
Theorem analyze_with_minimization dbg cx an p c cb :
  analyze_conflict_with true dbg cx an p c cb = analyze_conflict dbg cx an p c cb.
Proof. reflexivity. Qed.

(** The first-UIP clause is kept as it is, up to order: its literal of the
    conflict level comes first, one of the highest level among the others second,
    and that level is the one to return to. *)
Theorem prepare_reorders select dbg F cx se cx1 p1 c p2 an2 cb2 der a :
  select_ok (fun _ _ => True) select -> visited select dbg F cx se ->
  propagate dbg cx (se_prop se) = Ret (cx1, p1, Some c) -> decision_level (p_trail p1) <> 0 ->
  derive_1uip_clause (se_analysis se) p1 c (search_cb se) = Ret (p2, an2, cb2) -> an_derived an2 = der ++ [a] ->
  exists k rest, prepare_for_backtracking an2 p2 = Ret (k, an_set_derived an2 (a :: rest)) /\
    Permutation der rest /\ k < decision_level (p_trail p1) /\
    (forall x, In x rest -> exists j, j <= k /\ true_at p2 (neg x) j) /\
    match rest with [] => k = 0 | b :: _ => true_at p2 (neg b) k end.
Proof.
  intros Hs HV E Hd ED Eder. destruct (conflict_state _ _ _ _ _ _ _ _ Hs HV E) as (es & HP & HA & HC & Hc).
  destruct (derive_ok _ es p1 (se_analysis se) c (search_cb se) HP ltac:(lia) HA HC Hc) as (cl & p3 & es2 & an4 & cb3 & der' & u & E2 & Ecl & HS & HCB & HA2 & HG & Eder' & HD).
  rewrite ED in E2. inversion E2; subst p3 an4 cb3. rewrite Eder in Eder'. apply app_inj_tail in Eder' as [<- ->].
  pose proof (PS_trail _ _ _ _ _ HS) as Et. pose proof (ps_pi _ _ _ _ _ HS) as HP2.
  pose proof (do_rest _ _ _ _ _ HD) as Dr. 
  destruct (prepare_ok _ es2 p2 HP2 an2 der (neg (s_lit u)) Eder) as (k & rest & E3 & P & G1 & G2).
  { rewrite Et. intros x Hx. apply Dr; auto. }
  assert (HI : forall x, In x rest -> In x der) by (intros x Hx; eapply Permutation_in; [apply Permutation_sym; exact P|auto]).
  exists k, rest. split; auto. split; auto. split; [|split].
  - destruct rest as [|b rest]; [lia|]. rewrite <- G2, Et. apply Dr. apply HI. left; auto.
  - intros x Hx. exists (slev (t_steps (p_trail p2)) (neg x)). split; [apply G1; auto|].
    apply (true_at_slev _ _ _ HP2). split; auto. rewrite Et. apply Dr; auto.
  - destruct rest as [|b rest]; auto. apply (true_at_slev _ _ _ HP2). split; auto. rewrite Et. apply Dr, HI. left; auto.
Qed.

(** The learned clause is then asserting as in C19, and consists of all the
    literals of the first-UIP clause. *)
Theorem plain_learned_asserting select dbg F cx se cx1 p1 c cx2 an p2 cb :
  select_ok (fun _ _ => True) select -> visited select dbg F cx se ->
  propagate dbg cx (se_prop se) = Ret (cx1, p1, Some c) -> decision_level (p_trail p1) <> 0 ->
  analyze_conflict_with false dbg (bump_conflicts cx1) (se_analysis se) p1 c (search_cb se) = Ret (cx2, an, p2, cb) ->
  exists a rest k r,
    cx_proof cx2 = option_map (fun st => st ++ [PAdd (a :: rest)]) (cx_proof cx) /\
    reason_rest p2 (mkStep a k r) rest /\ (rest <> [] -> holds_clause p2 (a :: rest)) /\ NoDup (a :: rest) /\
    k < decision_level (p_trail p1) /\ decision_level (p_trail p2) = k /\
    t_steps (p_trail p2) = filter (fun s => s_level s <=? k) (t_steps (p_trail p1)) ++ [mkStep a k r] /\
    true_at p1 (neg a) (decision_level (p_trail p1)) /\
    (forall x, In x rest -> exists k', k' <= k /\ true_at p2 (neg x) k') /\
    match rest with [] => k = 0 | b :: _ => true_at p2 (neg b) k end /\
    (* falsifying it falsifies the conflict clause *)
    exists cl, conflict_lits (p_long p1) c = Ret cl /\ (forall x, In x cl -> follows p1 (map neg (a :: rest)) (neg x)).
Proof.
  intros Hs HV E Hd EA. destruct (conflict_state _ _ _ _ _ _ _ _ Hs HV E) as (es & HP & HA & HC & Hc).
  assert (Ecx : cx1 = cx).
  { destruct (visited_SI _ _ _ _ _ Hs HV) as (K & L & st & es0 & HK & H).
    destruct (SI_propagate dbg _ _ _ _ _ _ _ _ H) as (cx3 & p3 & es1 & r1 & E1 & H1 & _ & _ & HR).
    rewrite E in E1. inversion E1; subst. tauto. }
  subst cx1.
  destruct (analyze_plain _ es p1 dbg (bump_conflicts cx) (se_analysis se) c (search_cb se) HP ltac:(lia) HA HC Hc) as (cl & Ecl & [[E1 _]|R]);
    [rewrite EA in E1; discriminate|].
  destruct R as (cx3 & an3 & p3 & cb3 & es1 & es' & h & a & rest & r & k & target & E3 & Z & _). rewrite EA in E3. inversion E3; subst cx3 an3 p3 cb3.
  pose proof (az_pi _ _ _ _ _ _ _ _ _ _ _ _ _ _ _ _ _ _ Z) as HP2. pose proof (pi_tr _ _ _ _ HP) as HT.
  pose proof (az_ss _ _ _ _ _ _ _ _ _ _ _ _ _ _ _ _ _ _ Z) as Ess. pose proof (az_tg _ _ _ _ _ _ _ _ _ _ _ _ _ _ _ _ _ _ Z) as Etg.
  pose proof (az_rs _ _ _ _ _ _ _ _ _ _ _ _ _ _ _ _ _ _ Z) as RO. pose proof (az_f _ _ _ _ _ _ _ _ _ _ _ _ _ _ _ _ _ _ Z) as Hf.
  destruct (filter_levels _ _ _ _ HT Etg) as [F1 F2].
  assert (Hin : In (mkStep a k r) (t_steps (p_trail p2))) by (rewrite Ess; apply in_or_app; right; left; auto).
  assert (HR : reason_rest p2 (mkStep a k r) rest).
  { apply (rsn_reason _ _ _ HP2); auto. unfold rsn; cbn [s_reason s_lit]. destruct rest as [|x [|y rest]]; cbn [reason_of] in RO; subst; auto.
    destruct RO as (c0 & h0 & -> & RO). eauto. }
  assert (HT2 : forall x, In x rest -> true_at p2 (neg x) (slev (t_steps (p_trail p1)) (neg x)) /\ slev (t_steps (p_trail p1)) (neg x) <= k).
  { intros x Hx. specialize (Hf x Hx). pose proof (proj1 (back_in _ _ _ _ HT Etg (neg x)) Hf) as [B1 B2]. split; auto.
    apply in_slits in Hf as (i & s & Ei & Es). rewrite nth_error_firstn in Ei. destruct (Nat.ltb_spec i target); [|discriminate].
    exists s. split; [rewrite Ess; apply in_or_app; left; apply nth_error_In with i; rewrite nth_error_firstn; destruct (Nat.ltb_spec i target); [auto|lia]|].
    split; auto. rewrite <- Es. symmetry. eapply tr_slev; eauto. }
  exists a, rest, k, r. split.
  { rewrite (az_cx _ _ _ _ _ _ _ _ _ _ _ _ _ _ _ _ _ _ Z). cbn [cx_proof cx_log bump_conflicts cx_with]. destruct (cx_proof cx); reflexivity. }
  split; auto. split.
  { intros Hne. unfold reason_rest in HR; cbn [s_reason s_lit] in HR. destruct r as [| |b|c0]; [contradiction|contradiction|destruct HR as [-> HR]; exact HR|].
    left. exists c0. split; [exact HR|discriminate]. }
  split; [apply Z|]. split; [apply Z|]. split.
  { unfold decision_level. rewrite (az_ds _ _ _ _ _ _ _ _ _ _ _ _ _ _ _ _ _ _ Z), firstn_length.
    pose proof (az_lt _ _ _ _ _ _ _ _ _ _ _ _ _ _ _ _ _ _ Z) as Lt. unfold decision_level in Lt. lia. }
  split; [rewrite Ess, F1; reflexivity|]. split; [apply (true_at_slev _ _ _ HP); split; apply Z|].
  split; [intros x Hx; destruct (HT2 x Hx); eauto|]. split.
  { pose proof (az_b _ _ _ _ _ _ _ _ _ _ _ _ _ _ _ _ _ _ Z) as Hb. destruct rest as [|b rest]; auto. rewrite <- Hb. apply HT2. left; auto. }
  exists cl. split; auto. intros x Hx.
  apply (az_rup _ _ _ _ _ _ _ _ _ _ _ _ _ _ _ _ _ _ Z (follows p1 (map neg (a :: rest)))); auto; [eapply closed_follows; eauto|].
  intros y Hy. constructor. apply in_map; auto.
Qed.

(** It succeeds unless the arena is full. *)
Theorem plain_analyze_succeeds select dbg F cx se cx1 p1 c :
  select_ok (fun _ _ => True) select -> visited select dbg F cx se ->
  propagate dbg cx (se_prop se) = Ret (cx1, p1, Some c) -> decision_level (p_trail p1) <> 0 ->
  (exists cx2 an p2 cb, analyze_conflict_with false dbg (bump_conflicts cx1) (se_analysis se) p1 c (search_cb se) = Ret (cx2, an, p2, cb)) \/
  (analyze_conflict_with false dbg (bump_conflicts cx1) (se_analysis se) p1 c (search_cb se) = Panic PFull /\
   (2 ^ 32 <= N.of_nat (length (a_buffer (p_long p1))))%N).
Proof.
  intros Hs HV E Hd. destruct (conflict_state _ _ _ _ _ _ _ _ Hs HV E) as (es & HP & HA & HC & Hc).
  destruct (analyze_plain _ es p1 dbg (bump_conflicts cx1) (se_analysis se) c (search_cb se) HP ltac:(lia) HA HC Hc) as (cl & Ecl & [[E1 Hf]|R]).
  - right. split; auto. unfold Proof_Size.afull, Proof_Size.awords in Hf. unfold LITIDX_MAX in Hf. change (2 ^ 32)%N with 4294967296%N. lia.
  - left. destruct R as (cx3 & an3 & p3 & cb3 & es1 & es' & h & a & rest & r & k & target & E3 & Z). eauto.
Qed.

(** ** Examples: the conflict of [minimize_sound_example], where minimization
    would remove a literal. *)
Example prepare_example :
  let se := sta_search (so_state (at_step min3 2)) in
  match propagate true (so_ctx (at_step min3 2)) (se_prop se) with
  | Ret (_, p1, Some c) => decision_level (p_trail p1) = 2 /\
      match derive_1uip_clause (se_analysis se) p1 c (search_cb se) with
      | Ret (p2, an2, _) => an_derived an2 = [2; 1; 7]%N /\
          match prepare_for_backtracking an2 p2 with
          | Ret (k, an3) => k = 1 /\ an_derived an3 = [7; 2; 1]%N
          | _ => False
          end
      | _ => False
      end
  | _ => False
  end.
Proof. vm_compute. repeat split; reflexivity. Qed.
Example plain_example :
  match propagate true (so_ctx (at_step min3 2)) (prop_at min3 2) with
  | Ret (cx1, p1, Some c) =>
      match analyze_conflict_with false true (bump_conflicts cx1) (se_analysis (sta_search (so_state (at_step min3 2)))) p1 c
              (search_cb (sta_search (so_state (at_step min3 2)))) with
      | Ret (cx2, _, p2, _) => cx_proof cx2 = Some [PAdd [7; 2; 1]]%N /\ decision_level (p_trail p2) = 1
      | _ => False
      end
  | _ => False
  end.
Proof. vm_compute. split; reflexivity. Qed.
Print Assumptions analyze_with_minimization. Print Assumptions prepare_reorders.
Print Assumptions plain_learned_asserting. Print Assumptions plain_analyze_succeeds.
