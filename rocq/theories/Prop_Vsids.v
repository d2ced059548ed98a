(** Properties of the variable activities (C50) and of the decisions based on
    them (the second half of C35). *)
From Coq Require Import NArith ZArith List Bool Arith Floats.SpecFloat Reals Lia Lra Psatz ZifyN ZifyNat ZifyBool.
From Flocq Require Import Core.Core IEEE754.BinarySingleNaN.
From Verif Require Import Model_Base Model_Lit Model_PartialAssignment Model_Header Model_Arena Model_Prop Model_Heap Model_Vsids
  Model_Analysis Model_Solver Spec Drivers_Solver Drivers_Search Drivers_Vsids Proof_Base Proof_Heap Proof_Lit Proof_Trail Proof_Backtrack Proof_DB Proof_Select Proof_Solver Proof_Add Proof_Main
  Proof_Visited Proof_History Proof_Learn Proof_Float Proof_Vsids Proof_VsidsHist Examples_Solver Prop_Search.
Import ListNotations.
Local Open Scope nat_scope.

Lemma nn_finite f : nn f <-> finite_nonneg f.
Proof.
  rewrite nn_iff. unfold finite_nonneg. destruct f as [s|s| |s m e]; cbn [valid_binary]; try tauto.
Qed.
Lemma leb_val f g : nn f -> nn g -> SFleb f g = true <-> (val f <= val g)%R.
Proof.
  intros (x & <- & F & S) (y & <- & F' & S'). unfold val. rewrite !SF2R_B2SF.
  change (SFleb (B2SF x) (B2SF y)) with (Bleb x y). rewrite Bleb_correct by auto.
  split; [|apply Rle_bool_true]. intro H. destruct (Rle_bool_spec (B2R x) (B2R y)); auto. discriminate.
Qed.

Lemma key_fin g v i : VInv g v -> (heap_key v i <= FIN)%N /\ (bval (heap_key v i) <= LIM)%R /\ (bval (heap_key v i) <= e2 26 * val (vs_increment v))%R.
Proof.
  intro H. unfold heap_key. pose proof (vi_act _ _ H) as HA. rewrite Forall_forall in HA.
  destruct (le_lt_dec (length (h_values (vs_activity v))) i) as [L|L].
  - rewrite nth_overflow by auto. rewrite bval_0. pose proof lim_bounds as [L1 _]. pose proof (bpow_gt_0 radix2 123).
    pose proof (bpow_gt_0 radix2 26). pose proof (vi_lo _ _ H). pose proof (bpow_gt_0 radix2 (-30)). split; [unfold FIN; lia|]. split; [lra|nra].
  - apply HA. apply nth_In; auto.
Qed.

(** ** C50 *)
(** After any history of calls, the increment is a finite positive number and
    every activity is a finite non-negative number, stored as its bit pattern,
    and none exceeds the rescaling limit (a sixteenth of the largest finite
    number). *)
Theorem activities_finite shrink v : vhist shrink v ->
  finite_nonneg (vs_increment v) /\ SFltb (S754_zero false) (vs_increment v) = true /\
  SFleb (vs_increment v) RESCALE_LIMIT = true /\
  forall i, finite_nonneg (activity v i) /\ f32_to_bits (activity v i) = heap_key v i /\
    SFleb (activity v i) RESCALE_LIMIT = true.
Proof.
  intro H. apply vhist_inv in H. pose proof (vi_nn _ _ H) as Hn. split; [apply nn_finite; auto|]. split.
  - apply ltb_val; auto; [apply nn_iff; reflexivity|]. pose proof (vi_lo _ _ H). pose proof (bpow_gt_0 radix2 (-30)).
    change (val (S754_zero false)) with 0%R. lra.
  - split; [apply leb_val; auto using lim_nn; apply H|]. intro i. destruct (key_fin _ _ i H) as (A & B & C).
    unfold activity. fold (heap_key v i). pose proof (from_bits_nn _ A). split; [apply nn_finite; auto|]. split; [apply to_from; auto|].
    apply leb_val; auto using lim_nn.
Qed.

(** Comparing two heap keys as integers is comparing the activities. *)
Theorem key_order shrink v i j : vhist shrink v -> (heap_key v i <? heap_key v j)%N = SFltb (activity v i) (activity v j).
Proof.
  intro H. apply vhist_inv in H. destruct (key_fin _ _ i H) as (A & _). destruct (key_fin _ _ j H) as (B & _).
  unfold activity. fold (heap_key v i) (heap_key v j). apply eq_iff_eq_true. rewrite N.ltb_lt, ltb_val by (apply from_bits_nn; auto).
  apply bval_lt; auto.
Qed.

Lemma key_le g v i j : VInv g v -> (heap_key v i <= heap_key v j)%N <-> SFleb (activity v i) (activity v j) = true.
Proof.
  intro H. destruct (key_fin _ _ i H) as (A & _). destruct (key_fin _ _ j H) as (B & _).
  unfold activity. fold (heap_key v i) (heap_key v j). rewrite leb_val by (apply from_bits_nn; auto). apply bval_le; auto.
Qed.

Lemma nth_map0 (f : N -> N) l i : f 0%N = 0%N -> nth i (map f l) 0%N = f (nth i l 0%N).
Proof. intro H. rewrite <- H at 1. apply map_nth. Qed.
Lemma rescale_bits_0 : rescale_bits 0 = 0%N.
Proof. vm_compute. reflexivity. Qed.

(** Bumping a variable: no other variable overtakes a variable it was not ahead
    of, and the bumped variable falls behind no one.  If the bumped activity
    stays within the limit it is the rounded sum of old activity and increment,
    and nothing else changes.  Otherwise all activities and the increment are
    multiplied by the rescaling factor. *)
Theorem bump_keeps_order shrink v l : vhist shrink v -> vidx l < var_count v ->
  exists v', bump_var v l = Ret v' /\ var_count v' = var_count v /\
    (forall i j, i <> vidx l -> SFleb (activity v i) (activity v j) = true -> SFleb (activity v' i) (activity v' j) = true) /\
    (SFleb (f32_add (activity v (vidx l)) (vs_increment v)) RESCALE_LIMIT = true ->
       activity v' (vidx l) = f32_add (activity v (vidx l)) (vs_increment v) /\
       SFleb (activity v (vidx l)) (activity v' (vidx l)) = true /\
       vs_increment v' = vs_increment v /\ forall i, i <> vidx l -> activity v' i = activity v i) /\
    (SFltb RESCALE_LIMIT (f32_add (activity v (vidx l)) (vs_increment v)) = true ->
       activity v' (vidx l) = f32_mul (f32_add (activity v (vidx l)) (vs_increment v)) RESCALE_FACTOR /\
       vs_increment v' = f32_mul (vs_increment v) RESCALE_FACTOR /\
       forall i, i <> vidx l -> activity v' i = f32_mul (activity v i) RESCALE_FACTOR).
Proof.
  intros Hh Hl. pose proof (vhist_inv _ _ Hh) as H. destruct (VInv_bump shrink v l H Hl) as (v' & E & H' & _ & E2).
  exists v'. split; auto. split; [exact E2|]. pose proof E as Ekeep. unfold bump_var in E.
  rewrite (vget_nth 0%N) in E by auto. cbn [bind] in E. set (b := heap_key v (vidx l)).
  change (nth (vidx l) (h_values (vs_activity v)) 0%N) with b in E.
  destruct (key_fin _ _ (vidx l) H) as (B1 & B2 & B3). fold b in B1, B2, B3.
  destruct (bump_bits_ok (vs_increment v) b (vi_nn _ _ H) (vi_lo _ _ H) (vi_hi _ _ H) B1 B2 B3) as (Q1 & Q2 & Q3 & Q4 & Q5 & Q6).
  destruct (increase_ok (vs_activity v) (vidx l) (bump_bits (vs_increment v)) (vi_hs _ _ H) Hl) as (h' & Ei & I1 & I2 & I3 & I4).
  rewrite Ei in E. cbn [bind] in E. change (nth (vidx l) (h_values (vs_activity v)) 0%N) with b in I2.
  assert (N1 : forall i, i <> vidx l -> nth i (h_values h') 0%N = heap_key v i).
  { intros i Hi. rewrite I2. unfold heap_key. destruct (le_lt_dec (length (h_values (vs_activity v))) i) as [L|L].
    - rewrite !nth_overflow; auto. rewrite upd_length; auto.
    - apply nth_error_nth. rewrite upd_other by auto. apply nth_error_nth'. auto. }
  assert (N2 : nth (vidx l) (h_values h') 0%N = bump_bits (vs_increment v) b).
  { rewrite I2. apply nth_error_nth. apply upd_same. auto. }
  assert (N3 : forall j, (heap_key v j <= nth j (h_values h') 0%N)%N).
  { intro j. destruct (Nat.eq_dec j (vidx l)) as [->|Hj]; [rewrite N2; exact Q3|rewrite N1 by auto; lia]. }
  assert (T : forall j, (nth j (h_values h') 0%N <= FIN)%N /\ (bval (nth j (h_values h') 0%N) <= e2 125)%R).
  { intro j. destruct (Nat.eq_dec j (vidx l)) as [->|Hj]; [rewrite N2; auto|]. rewrite N1 by auto. destruct (key_fin _ _ j H) as (A & B & _).
    split; auto. pose proof lim_bounds as [_ L]. assert (e2 124 <= e2 125)%R by (apply bpow_le; lia). lra. }
  destruct (SFltb RESCALE_LIMIT (f32_add (f32_from_bits b) (vs_increment v))) eqn:Ec.
  - injection E as <-. split; [|split].
    + intros i j Hi Hle. apply key_le with (g := shrink) in Hle; auto. apply key_le with (g := shrink); auto.
      unfold heap_key, vsids_rescale, apply_monotone. cbn [vs_activity h_values]. rewrite !nth_map0 by apply rescale_bits_0.
      apply rescale_bits_mono; try apply T. rewrite N1 by auto. etransitivity; [exact Hle|apply N3].
    + intro Hle. exfalso. unfold activity in Hle. fold (heap_key v (vidx l)) in Hle. fold b in Hle.
      apply (ltb_val _ _ lim_nn Q1) in Ec. apply (leb_val _ _ Q1 lim_nn) in Hle. lra.
    + intros _. unfold activity, vsids_rescale, apply_monotone. cbn [vs_activity vs_increment h_values].
      assert (R : forall j, f32_from_bits (nth j (map rescale_bits (h_values h')) 0%N) = f32_mul (f32_from_bits (nth j (h_values h') 0%N)) RESCALE_FACTOR).
      { intro j. rewrite nth_map0 by apply rescale_bits_0. unfold rescale_bits at 1. apply from_to.
        apply rescale_one; [apply from_bits_nn|]; apply T. }
      rewrite !R, N2. fold (heap_key v (vidx l)). fold b. unfold bump_bits at 1. rewrite from_to by auto. split; auto. split; auto.
      intros i Hi. rewrite R, N1 by auto. reflexivity.
  - injection E as <-. split; [|split].
    + intros i j Hi Hle. apply key_le with (g := shrink) in Hle; auto. apply key_le with (g := shrink); auto.
      unfold heap_key at 1 2. cbn [vs_activity]. rewrite N1 by auto. etransitivity; [exact Hle|apply N3].
    + intros _. unfold activity. cbn [vs_activity vs_increment]. rewrite N2. fold (heap_key v (vidx l)). fold b. unfold bump_bits at 1 2. rewrite from_to by auto.
      split; auto. split; [|split; auto].
      * apply leb_val; auto; [apply from_bits_nn; auto|]. change (val (f32_from_bits b)) with (bval b). rewrite <- Q4. apply bval_le; auto.
      * intros i Hi. rewrite N1 by auto. reflexivity.
    + intro Ht. unfold activity in Ht. fold (heap_key v (vidx l)) in Ht. fold b in Ht. congruence.
Qed.

(** Decaying keeps the order of all activities, and changes no activity unless
    the new increment exceeds the limit. *)
Theorem decay_keeps_order shrink v i j : vhist shrink v ->
  (SFleb (activity v i) (activity v j) = true -> SFleb (activity (vsids_decay v) i) (activity (vsids_decay v) j) = true) /\
  (SFleb (f32_mul (vs_increment v) INVERSE_DECAY) RESCALE_LIMIT = true ->
     activity (vsids_decay v) i = activity v i /\ vs_increment (vsids_decay v) = f32_mul (vs_increment v) INVERSE_DECAY /\
     SFleb (vs_increment v) (vs_increment (vsids_decay v)) = true).
Proof.
  intro Hh. pose proof (vhist_inv _ _ Hh) as H. destruct (VInv_decay _ _ H) as (H' & _).
  split.
  - intro Hle. apply key_le with (g := shrink) in Hle; auto. apply key_le with (g := shrink); auto. unfold vsids_decay.
    destruct (SFltb _ _); [|exact Hle]. unfold heap_key, vsids_rescale, apply_monotone. cbn [vs_activity h_values].
    rewrite !nth_map0 by apply rescale_bits_0. destruct (key_fin _ _ j H) as (A & B & _). apply rescale_bits_mono; auto.
    pose proof lim_bounds as [_ L]. assert (e2 124 <= e2 125)%R by (apply bpow_le; lia). unfold heap_key in B. lra.
  - intro Hle. unfold vsids_decay.
    pose proof lim_bounds as [L1 L2]. pose proof dec_bounds as [D1 D2]. pose proof (vi_hi _ _ H) as Hhi.
    pose proof (vi_lo _ _ H) as Hlo. pose proof (bpow_gt_0 radix2 (-30)). change (e2 0) with 1%R in D1. change (e2 1) with 2%R in D2.
    assert (P : (val (vs_increment v) * DEC <= e2 127)%R).
    { change 127%Z with (124 + 3)%Z. rewrite bpow_plus. change (e2 3) with 8%R. apply Rmult_le_compat; lra. }
    destruct (mul_nn (vs_increment v) INVERSE_DECAY (vi_nn _ _ H) dec_nn P) as [A B]. fold DEC in B.
    destruct (SFltb _ _) eqn:Ec.
    { exfalso. apply (ltb_val _ _ lim_nn A) in Ec. apply (leb_val _ _ A lim_nn) in Hle. lra. }
    cbn [vs_increment vs_activity]. split; auto. split; auto. apply leb_val; auto; [apply H|]. rewrite B.
    rewrite <- (rnd_id (val (vs_increment v))) at 1 by (apply val_fmt, H). apply rnd_mono. nra.
Qed.

(** 1700 decays take the increment beyond the limit once; the bump after them
    is applied to a rescaled increment. *)
Definition many (k : nat) (v : vsids) : vsids := Nat.iter k vsids_decay v.
Lemma many_hist g k v : vhist g v -> vhist g (many k v).
Proof. intro H. induction k; cbn; auto. constructor; auto. Qed.
Definition of_res (r : res vsids) : vsids := match r with Ret v => v | _ => vsids_empty end.
Lemma of_res_hist g v r : (forall v', r = Ret v' -> vhist g v') -> vhist g v -> match r with Ret _ => True | _ => False end -> vhist g (of_res r).
Proof. intros H _ Hr. destruct r; try contradiction. auto. Qed.

Definition ex_start := of_res (vsids_resize vsids_empty 3).
Definition ex_long := many 1600 (of_res (bump_var (many 70 (of_res (bump_var ex_start 2))) 0)).
(** The increment is now close to the limit. *)
Definition ex_over := of_res (bump_var ex_long 4).
Lemma ex_long_hist : vhist false ex_long.
Proof.
  unfold ex_long. apply many_hist. apply (of_res_hist false vsids_empty); [intros v1 E1; eapply vh_bump; [|exact E1]|constructor|vm_compute; exact I].
  apply many_hist. apply (of_res_hist false vsids_empty); [intros v2 E2; eapply vh_bump; [|exact E2]|constructor|vm_compute; exact I].
  apply (of_res_hist false vsids_empty); [intros v3 E3; eapply vh_resize; [constructor| |exact E3]; cbn; lia|constructor|vm_compute; exact I].
Qed.
(** Five more decays and a bump in a state where the sum is beyond the limit:
    variable 2 is now ahead of variables 0 and 1, which keep their order. *)
Example bump_rescale_example :
  let v := many 5 ex_over in
  vhist false v /\ vidx 4 < var_count v /\ SFltb RESCALE_LIMIT (f32_add (activity v (vidx 4)) (vs_increment v)) = true /\
  (heap_key v 1 < heap_key v 0)%N /\ (heap_key v 0 < heap_key v 2)%N /\
  (0 < heap_key (of_res (bump_var v 4)) 0 < heap_key (of_res (bump_var v 4)) 2)%N.
Proof.
  split.
  - apply many_hist. apply (of_res_hist false vsids_empty); [intros v' E; eapply vh_bump; [exact ex_long_hist|exact E]|constructor|vm_compute; exact I].
  - vm_compute. repeat split; repeat constructor.
Qed.

(** Decaying in [many 5 ex_over] once more exceeds the limit and rescales. *)
Example decay_rescale_example : let v := many 5 ex_over in
  SFltb RESCALE_LIMIT (f32_mul (vs_increment v) INVERSE_DECAY) = true /\ heap_key (vsids_decay v) 2 <> heap_key v 2.
Proof. vm_compute. split; [reflexivity|discriminate]. Qed.

(** The search uses the decision heuristic only through its operations: the
    theorems above apply to every state of every search. *)
Theorem search_history select dbg F cx se :
  select_ok (fun _ _ => True) select -> visited select dbg F cx se -> vhist false (se_vsids se).
Proof. apply visited_vh. Qed.

(** ** C35, second half *)
(** The variable chosen for a decision has the largest activity of all
    unassigned variables. *)
Theorem decision_max_activity select dbg F cx se v vs w :
  select_ok (fun _ _ => True) select -> visited select dbg F cx se ->
  pop_decision_var (se_vsids se) (p_values (se_prop se)) = Ret (Some v, vs) ->
  has_var F w -> is_open (se_prop se) (2 * N.of_nat w) ->
  SFleb (activity (se_vsids se) w) (activity (se_vsids se) v) = true.
Proof.
  intros Hs HV Ep Hw Ho. pose proof (vhist_inv _ _ (visited_vh _ _ _ _ _ Hs HV)) as HI.
  destruct (visited_SI _ _ _ _ _ Hs HV) as (K & L & st & es & HK & H).
  destruct (pop_decision_ok (cnf_vars F) (p_values (se_prop se)) (slits (t_steps (p_trail (se_prop se)))) (se_vsids se) (se_phases se)) as (o & vs1 & E & _ & _ & _ & _ & HO).
  { apply (s_pi _ _ _ _ _ _ _ _ H). } { apply (s_cb _ _ _ _ _ _ _ _ H). } { apply (s_cov _ _ _ _ _ _ _ _ H). }
  rewrite E in Ep. inversion Ep; subst o vs1. destruct HO as (_ & _ & _ & Hm).
  apply key_le with (g := false); auto. apply Hm.
  - apply (vi_ho _ _ HI eq_refl).
  - apply has_var_lt; auto.
  - assert (Ev : vidx (2 * N.of_nat w) = w) by (rewrite vidx_half; lia).
    rewrite <- Ev, vassigned_lit. unfold is_open, is_true, is_false, trail_lits in Ho. tauto.
Qed.

(** A state of the pigeon hole search with 17 conflicts: the chosen variable's
    activity is above the initial one and another unassigned variable has a
    smaller one. *)
Definition php5_40 := sta_search (so_state (after true 40 (added true php5))).
Definition php5_pop := match pop_decision_var (se_vsids php5_40) (p_values (se_prop php5_40)) with Ret (_, vs) => vs | _ => vsids_empty end.
Example decision_max_example :
  visited select_sort true php5 (so_ctx (after true 40 (added true php5))) php5_40 /\
  pop_decision_var (se_vsids php5_40) (p_values (se_prop php5_40)) = Ret (Some 9, php5_pop) /\
  has_var php5 1 /\ is_open (se_prop php5_40) (2 * N.of_nat 1) /\
  SFltb (activity (se_vsids php5_40) 1) (activity (se_vsids php5_40) 9) = true.
Proof.
  split; [apply vis_solver, reach_after; constructor; apply php5_built|].
  split; [vm_compute; reflexivity|]. split; [apply has_var_lt; vm_compute; repeat constructor|].
  split; [|vm_compute; reflexivity].
  unfold is_open, is_true, is_false, trail_lits. vm_compute. intuition discriminate.
Qed.

Print Assumptions activities_finite.
Print Assumptions key_order.
Print Assumptions bump_keeps_order.
Print Assumptions decay_keeps_order.
Print Assumptions search_history.
Print Assumptions decision_max_activity.
