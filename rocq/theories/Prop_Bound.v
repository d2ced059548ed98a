(** C92: bounds on the number of search steps. *)
From Coq Require Import NArith List Bool Arith Lia ZifyN ZifyNat ZifyBool.
From Verif Require Import Model_Base Model_Lit Model_PartialAssignment Model_Header Model_Arena Model_Prop
  Model_Heap Model_Vsids Model_Analysis Model_Luby Model_Solver Spec Drivers_Arena Proof_Base Proof_Luby
  Proof_Solver Proof_Search Proof_Solve Proof_Add Drivers_Solver Proof_Main Proof_Select Drivers_Search Examples_Solver Prop_Search Prop_Solver.
Import ListNotations.

(** ** Specification *)
(** All variables are below [v], and [m] is [v]; but a release build that was given the
    same unit clause twice (see C08) also counts the unit clauses. *)
Definition size_at_most (dbg : bool) (F : list (list N)) (m : nat) : Prop :=
  exists v, (forall c x, In c F -> In x c -> vidx x < v) /\ v <= m /\ (dbg = true \/ distinct_units F \/ v + unit_clauses F <= m).
(** [n] search steps in a row that do not answer, and [s 0], [s 1], ... the states of
    the solver before, between and after them *)
Definition searching (select : selection) (dbg : bool) (s : nat -> solver) (n : nat) : Prop :=
  forall i, i < n -> exists cx st, schedule_search_step select dbg (so_ctx (s i)) (so_state (s i)) = Ret (None, cx, st) /\ s (S i) = mkSolver cx st.

Lemma size_K dbg F m K : size_at_most dbg F m -> (nodup_start dbg F -> K = 0) /\ K <= length (taken_units F) -> K + cnf_vars F <= m.
Proof.
  intros (v & Hv & H1 & H2) [H3 H4]. assert (cnf_vars F <= v) by (destruct (cnf_vars_wit F) as [->|(c & x & Hc & Hx & ->)]; [lia|specialize (Hv c x Hc Hx); lia]).
  destruct H2 as [H2|[H2|H2]]; [rewrite H3; [lia|left; auto]|rewrite H3; [lia|right; auto]|pose proof (taken_le F); lia].
Qed.

(** ** C92 *)
(** Between two restarts there are fewer than 2^(m+1) search steps, for [m] variables:
    the sequence of decisions and implications is never repeated. *)
Theorem steps_between_restarts select dbg F s n m :
  select_ok (fun _ _ => True) select -> reach select dbg F (s 0) -> size_at_most dbg F m ->
  searching select dbg s n -> restarts (s n) = restarts (s 0) -> n < 2 ^ (m + 1) - 1.
Proof.
  intros Hs HR Hm Hrun Hq. destruct (MI_reach _ _ _ _ Hs HR) as [(K & L & steps & es & HK & H) HL]. pose proof (size_K _ _ _ _ Hm HK) as Km.
  assert (A : forall k, k <= n -> (exists L steps es, SOI K (cnf_vars F) F L steps es (s k)) /\ restarts (s 0) <= restarts (s k) /\
     (restarts (s k) = restarts (s 0) -> k <= rank (K + cnf_vars F) 0 (levs (so_se (s k))))).
  { induction k as [|k IH]; intro Hk; [split; [eauto|split; [lia|intros _; lia]]|].
    destruct (IH ltac:(lia)) as ((L0 & steps0 & es0 & H0) & Q1 & Q2). destruct (Hrun k ltac:(lia)) as (cx & st & E & Es).
    destruct (schedule_step_ok select _ dbg K _ F L0 steps0 es0 (so_ctx (s k)) (so_state (s k)) Hs (fun e => proj1 HK (or_introl e)) H0) as [[E1 _]|(r' & cx' & st' & L1 & steps1 & es1 & E1 & O)];
      rewrite E in E1; [discriminate|]. inversion E1; subst r' cx' st'. pose proof (sc_rst _ _ _ _ _ _ _ _ _ _ _ _ _ O) as T. pose proof (sc_res _ _ _ _ _ _ _ _ _ _ _ _ _ O) as (_ & _ & R).
    rewrite Es. split; [exists L1, steps1, es1; apply O|]. unfold restarts in *. cbn [so_ctx so_state] in *. destruct (restarts_now (so_ctx (s k)) (so_sc (s k))).
    - destruct T as [T _]. rewrite T. lia.
    - destruct T as [T _]. rewrite T. split; [exact Q1|]. intro G. specialize (R eq_refl). apply grow_rank in R. specialize (Q2 G). lia. }
  destruct (A n (le_n _)) as (_ & _ & B). specialize (B Hq). pose proof (rank_lt (K + cnf_vars F) 0 (levs (so_se (s n)))).
  assert (2 ^ S (K + cnf_vars F) <= 2 ^ (m + 1)) by (apply Nat.pow_le_mono_r; lia). lia.
Qed.

(** So no restart follows one whose Luby term [t] has 512 t >= 2^(m+1). *)
Theorem last_restart select dbg F s n m i j t :
  select_ok (fun _ _ => True) select -> reach select dbg F (s 0) -> size_at_most dbg F m -> searching select dbg s n ->
  i < j -> j < n -> restarts (s (S i)) = S (restarts (s i)) -> luby_spec (restarts (s (S i))) t -> (2 ^ N.of_nat (m + 1) <= 512 * t)%N ->
  restarts (s (S j)) = restarts (s j).
Proof.
  intros Hs HR Hm Hrun Hij Hjn Hi Ht Hbig.
  assert (RU : forall d, Drivers_Search.run select dbg (fun k => s (k + d)) (n - d)).
  { intros d k Hk. destruct (Hrun (k + d) ltac:(lia)) as (cx & st & E & Es). exists None, cx, st. split; auto. }
  assert (RU0 : Drivers_Search.run select dbg s n). { intros k Hk. destruct (Hrun k Hk) as (cx & st & E & Es). exists None, cx, st. auto. }
  assert (RS : forall k, k <= n -> reach select dbg F (s k)).
  { induction k as [|k IH]; intro G; [exact HR|]. destruct (Hrun k ltac:(lia)) as (cx & st & E & ->). eapply reach_step; [apply IH; lia|exact E]. }
  assert (CF : forall k, k < n -> conflicts (s (S k)) <= S (conflicts (s k))).
  { intros k Hk. destruct (Hrun k Hk) as (cx & st & E & Es). destruct (MI_reach _ _ _ _ Hs (RS k ltac:(lia))) as [(K & L & steps & es & HK & H) HL].
    destruct (schedule_step_ok select _ dbg K _ F L steps es (so_ctx (s k)) (so_state (s k)) Hs (fun e => proj1 HK (or_introl e)) H) as [[E1 _]|(r' & cx' & st' & L1 & steps1 & es1 & E1 & O)];
      rewrite E in E1; [discriminate|]. inversion E1; subst r' cx' st'. pose proof (sc_cf _ _ _ _ _ _ _ _ _ _ _ _ _ O). rewrite Es. unfold conflicts. cbn [so_ctx]. lia. }
  revert j Hij Hjn. induction j as [j IH] using (well_founded_induction Nat.lt_wf_0). intros Hij Hjn.
  assert (Hb : forall k, i < k < j -> restarts (s (S k)) = restarts (s k)) by (intros k Hk; apply IH; lia).
  destruct (restart_schedule select dbg F s n i j t Hs HR RU0 Hij Hjn Hi Hb Ht) as [B [C|C]]; [|exact C]. exfalso. apply B in C.
  assert (Rj : forall k, S i + k <= j -> restarts (s (S i + k)) = restarts (s (S i)) /\ conflicts (s (S i + k)) <= conflicts (s (S i)) + k).
  { induction k as [|k IHk]; intro G; [rewrite Nat.add_0_r; lia|]. destruct (IHk ltac:(lia)) as [G1 G2]. rewrite Nat.add_succ_r. rewrite Hb by lia. split; [exact G1|]. pose proof (CF (S i + k) ltac:(lia)). lia. }
  destruct (Rj (j - S i) ltac:(lia)) as [G1 G2]. replace (S i + (j - S i)) with j in * by lia. pose proof (CF i ltac:(lia)).
  pose proof (steps_between_restarts select dbg F (fun k => s (k + S i)) (j - S i) m Hs (RS (S i) ltac:(lia)) Hm) as Q. cbv beta in Q. rewrite Nat.add_0_l in Q. replace (j - S i + S i) with j in Q by lia.
  specialize (Q ltac:(intros k Hk; apply (Hrun (k + S i)); lia) G1).
  assert (N.of_nat (2 ^ (m + 1)) <= 512 * t)%N by (rewrite Nat2N.inj_pow; exact Hbig). lia.
Qed.

(** Every call of [solve] is done after at most 2^(e+1) 2^(m+1) search steps, where
    512 2^e exceeds 2^m: there are at most 2^(e+1) restarts before the last one. *)
Theorem solve_step_bound select dbg F s m e fuel :
  select_ok (fun _ _ => True) select -> reach select dbg F s -> size_at_most dbg F m ->
  m <= e + 8 -> 2 ^ (e + 1) * 2 ^ (m + 1) <= fuel ->
  (exists b s', solve select dbg fuel s = Ret (b, s')) \/
  (solve select dbg fuel s = Panic PFull /\ exists s1, reach select dbg F s1 /\ arena_full s1).
Proof.
  intros Hs HR Hm He Hf. destruct (MI_reach _ _ _ _ Hs HR) as [(K & L & steps & es & HK & H) HL]. pose proof (size_K _ _ _ _ Hm HK) as Km.
  pose proof (solve_halts select _ dbg K (cnf_vars F) F Hs (fun e => proj1 HK (or_introl e)) L steps es s _ e H HL ltac:(lia)) as Q.
  apply (halts_more _ _ _ fuel) in Q.
  - unfold halts in Q. destruct (solve select dbg fuel s) as [[b s']|p|] eqn:E; [left; eauto|right|congruence]. destruct (solve_full select dbg F fuel Hs s p HR E) as [-> G]. auto.
  - rewrite <- Nat.pow_succ_r'. etransitivity; [|exact Hf]. apply Nat.mul_le_mono; apply Nat.pow_le_mono_r; lia.
Qed.

(** ** Examples *)
Lemma searching_after dbg s0 n : forallb (fun k => match schedule_search_step select_sort dbg (so_ctx (after dbg k s0)) (so_state (after dbg k s0)) with Ret (None, _, _) => true | _ => false end) (seq 0 n) = true ->
  searching select_sort dbg (fun k => after dbg k s0) n.
Proof.
  intros H i Hi. destruct (run_after dbg s0 n) with (i := i) as (r & cx & st & E & Es); [|exact Hi|].
  - rewrite forallb_forall in *. intros k Hk. specialize (H k Hk). destruct (schedule_search_step _ _ _ _); auto.
  - rewrite forallb_forall in H. specialize (H i). rewrite in_seq in H. specialize (H ltac:(lia)). rewrite E in *. destruct r; [discriminate|]. eauto.
Qed.
Lemma size_check F m : forallb (fun c => forallb (fun x => vidx x <? m) c) F = true -> size_at_most true F m.
Proof.
  intro H. exists m. split; [|auto]. intros c x Hc Hx. rewrite forallb_forall in H. specialize (H c Hc). rewrite forallb_forall in H. specialize (H x Hx). lia.
Qed.
(** Twenty-nine search steps without a restart after the first one; the formula has 20
    variables, so there could be at most 2097150. *)
Example steps_between_restarts_example : let s k := after true k (after true 1 (added true php5)) in
  reach select_sort true php5 (s 0) /\ size_at_most true php5 20 /\ searching select_sort true s 29 /\ restarts (s 29) = restarts (s 0) /\ 0 < restarts (s 0).
Proof.
  cbv zeta. split; [apply reach_after, reach_after, reach_built, php5_built|]. split; [apply size_check; vm_compute; auto|].
  split; [apply searching_after; vm_compute; reflexivity|]. split; vm_compute; [reflexivity|lia].
Qed.
(** With 8 variables even the first restart is the last. *)
Example last_restart_example : let s k := after true k (added true sat5) in exists m,
  reach select_sort true sat5 (s 0) /\ size_at_most true sat5 m /\ searching select_sort true s 3 /\
  restarts (s 1) = S (restarts (s 0)) /\ luby_spec (restarts (s 1)) 1 /\ (2 ^ N.of_nat (m + 1) <= 512 * 1)%N.
Proof.
  cbv zeta. exists 8. split; [apply reach_built, sat5_built|]. split; [apply size_check; vm_compute; auto|].
  split; [apply searching_after; vm_compute; reflexivity|]. split; [vm_compute; reflexivity|]. split; [|vm_compute; discriminate].
  replace (restarts (after true 1 (added true sat5))) with (2 ^ 1 - 1) by (vm_compute; reflexivity). apply (luby_peak 1). lia.
Qed.
(** So for 8 variables 1024 steps are enough. *)
Example solve_step_bound_example : exists b s', solve select_sort true (2 ^ (0 + 1) * 2 ^ (8 + 1)) (added true sat5) = Ret (b, s').
Proof.
  destruct (solve_step_bound select_sort true sat5 (added true sat5) 8 0 (2 ^ (0 + 1) * 2 ^ (8 + 1)) any_select_sort (reach_built _ _ _ _ (sat5_built true))) as [G|[E _]].
  - apply size_check; vm_compute; auto.
  - lia.
  - lia.
  - exact G.
  - exfalso. revert E. vm_compute. discriminate.
Qed.

Print Assumptions steps_between_restarts.
Print Assumptions last_restart.
Print Assumptions solve_step_bound.
