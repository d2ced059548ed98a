(** The work of the priority queue in one step (C97). *)
From Coq Require Import NArith List Bool Arith Lia Permutation ZifyN ZifyNat ZifyBool Floats.SpecFloat.
From Verif Require Import Model_Base Model_Lit Model_PartialAssignment Model_Header Model_Arena Model_Prop
  Model_Heap Model_Vsids Model_Analysis Model_Cost Model_HeapCost Model_Luby Model_Solver Model_RunQueue Spec Proof_Base Proof_PA Proof_Lit Proof_Heap
  Proof_Long Proof_Trail Proof_PropOps Proof_Backtrack Proof_Inv Proof_Propagate Proof_Gc Proof_Glue Proof_Analysis Proof_Minimize
  Proof_Learn Proof_Solver Proof_Search Proof_Solve Proof_Add Drivers_Solver Drivers_Search Proof_Main Proof_Visited Proof_Cost Proof_RunWork Prop_HeapCost.
Import ListNotations.

(** ** Erasure *)
Lemma er_vun v l : erase (vsids_unassign_q v l) = vsids_unassign v l.
Proof. apply er_bind; [apply er_enqueue|]. reflexivity. Qed.
Lemma er_bumpv v l : erase (bump_var_q v l) = bump_var v l.
Proof. apply er_bind; [apply er_units|]. intro old. apply er_bind; [apply er_increase|]. reflexivity. Qed.
Lemma er_popl vals fuel : forall h, erase (pop_loop_q fuel h vals) = pop_loop fuel h vals.
Proof.
  induction fuel as [|f IH]; intro h; [reflexivity|]. cbn [pop_loop_q pop_loop]. apply er_bind; [apply er_pop|]. intros [[v|] h1]; [|reflexivity].
  apply er_bind; [apply er_units|]. intros []; cbn [negb]; [apply IH|reflexivity].
Qed.
Lemma er_popd v vals : erase (pop_decision_var_q v vals) = pop_decision_var v vals.
Proof. apply er_bind; [apply er_popl|]. intros [o h]. reflexivity. Qed.
Lemma er_cbun cb l : erase (cb_unassign_q cb l) = cb_unassign cb l.
Proof. apply er_bind; [apply er_vun|]. intro v. apply er_bind; [apply er_units|]. reflexivity. Qed.
Lemma er_cbin cb l : erase (cb_var_in_conflict_q cb l) = cb_var_in_conflict cb l.
Proof. apply er_bind; [apply er_bumpv|]. reflexivity. Qed.
Lemma er_unstep dbg st s : erase (unassign_step_q dbg st s) = unassign_step dbg st s.
Proof.
  destruct st as [[cb vals] ti]. apply er_bind; [apply er_cbun|]. intro cb'. apply er_bind; [apply er_units|]. intro v'. apply er_bind; [apply er_units|]. reflexivity.
Qed.
Lemma er_back dbg p lv cb : erase (backtrack_to_level_q dbg p lv cb) = backtrack_to_level dbg p lv cb.
Proof.
  unfold backtrack_to_level_q, backtrack_to_level. cbv zeta. destruct (Nat.ltb _ _); [|reflexivity]. apply er_bind; [apply er_units|]. intro target.
  destruct (Nat.leb _ _); [|reflexivity]. apply er_bind; [apply er_fold; intros; apply er_unstep|]. intros [[cb' v'] ti']. reflexivity.
Qed.
Lemma er_addq t st l : erase (add_literal_q t st l) = add_literal t st l.
Proof.
  destruct st as [an cb]. apply er_bind; [apply er_units|]. intro i. apply er_bind; [apply er_units|]. intro s. cbv zeta. destruct (Nat.eqb (s_level s) 0); [reflexivity|].
  apply er_bind; [apply er_units|]. intro old. apply er_bind; [apply er_units|]. intro cur. destruct old; [reflexivity|]. apply er_bind; [apply er_cbin|]. intro cb1.
  destruct (Nat.eqb _ _); reflexivity.
Qed.
Lemma er_uipq k : forall p an cb, erase (uip_loop_q k p an cb) = uip_loop k p an cb.
Proof.
  induction k as [|k IH]; intros p an cb; [reflexivity|]. cbn [uip_loop_q uip_loop]. cbv zeta. apply er_bind; [apply er_units|]. intro cur.
  apply er_bind; [apply er_units|]. intro cs. destruct (negb cur); [apply IH|]. apply er_bind; [apply er_units|]. intro s. destruct (Nat.ltb 0 _); [|reflexivity].
  destruct (Nat.eqb _ 0). { apply er_bind; [apply er_units|]. reflexivity. }
  apply er_bind; [apply er_units|]. intros [p1 an3]. apply er_bind; [apply er_units|]. intro rl. apply er_bind; [apply er_fold; intros; apply er_addq|]. intros [an4 cb']. apply IH.
Qed.
Lemma er_deriveq an p c cb : erase (derive_1uip_clause_q an p c cb) = derive_1uip_clause an p c cb.
Proof.
  unfold derive_1uip_clause_q, derive_1uip_clause. cbv zeta. apply er_bind; [apply er_units|]. intros [p1 an2]. apply er_bind; [apply er_units|]. intro ls.
  apply er_bind; [apply er_fold; intros; apply er_addq|]. intros [an3 cb']. apply er_bind; [apply er_uipq|]. intros [[p2 an4] cb'']. destruct (Nat.eqb _ 0); reflexivity.
Qed.
Lemma er_analyzeq dbg cx an p c cb : erase (analyze_conflict_q dbg cx an p c cb) = analyze_conflict dbg cx an p c cb.
Proof.
  unfold analyze_conflict_q, analyze_conflict. destruct (negb _); [|reflexivity]. apply er_bind; [apply er_deriveq|]. intros [[p1 an1] cb1].
  apply er_bind; [apply er_units|]. intros [lv an2]. apply er_bind; [apply er_back|]. intros [p2 cb3]. apply er_bind; [apply er_units|]. intros [[cx' an3] p3]. reflexivity.
Qed.
Lemma er_restartq dbg cx se : erase (restart_q dbg cx se) = restart dbg cx se.
Proof. unfold restart_q, restart. cbv zeta. destruct (Nat.ltb _ _); [|reflexivity]. apply er_bind; [apply er_back|]. intros [p cb]. reflexivity. Qed.
Lemma er_stepq dbg cx se : erase (search_step_q dbg cx se) = search_step dbg cx se.
Proof.
  unfold search_step_q, search_step. destruct (p_unsat _); [reflexivity|]. apply er_bind; [apply er_units|]. intro p0.
  apply er_bind; [apply er_units|]. intros [[cx1 p1] r]. destruct r as [c|].
  - destruct (Nat.eqb _ 0); [reflexivity|]. apply er_bind; [apply er_analyzeq|]. intros [[[cx3 an] p2] cb]. reflexivity.
  - apply er_bind; [apply er_popd|]. intros [[v|] vs]; [|reflexivity]. apply er_bind; [apply er_units|]. intro l. apply er_bind; [apply er_units|]. reflexivity.
Qed.
Lemma er_schedule_q select dbg cx st : erase (schedule_search_step_q select dbg cx st) = schedule_search_step select dbg cx st.
Proof.
  unfold schedule_search_step_q, schedule_search_step. destruct (should_restart _ _) as [dr sc1]. apply er_bind; [destruct dr; [apply er_restartq|reflexivity]|]. intros [cx1 se1].
  destruct (should_reduce _ _) as [dd sc2]. apply er_bind; [apply er_units|]. intros [cx2 se2]. apply er_bind; [apply er_stepq|]. intros [[r cx3] se3]. reflexivity.
Qed.

(** ** The size of the queue *)
Definition ql (v : vsids) : nat := length (h_heap (vs_activity v)).
Lemma rootl_len fuel : forall h v p h' k, root_loop_n fuel h v p = Ret (h', k) -> length (h_heap h') = length (h_heap h).
Proof.
  induction fuel as [|f IH]; intros h v [|p] h' k E; cbn [root_loop_n] in E; [inversion E; auto|discriminate E|inversion E; auto|].
  apply bindC_ret in E as (pv & k1 & k2 & E1 & E & ->). apply units_ret in E1 as [_ ->].
  apply bindC_ret in E as (c & k3 & k4 & E1 & E & ->). destruct c; [|inversion E; auto].
  apply bindC_ret in E as (h1 & k5 & k6 & E2 & E & ->). apply units_ret in E2 as [E2 _]. apply swap_length in E2. apply IH in E. congruence.
Qed.
Lemma root_len h p h' k : move_towards_root_n h p = Ret (h', k) -> length (h_heap h') = length (h_heap h).
Proof. intro E. apply bindC_ret in E as (v & k1 & k2 & E1 & E & ->). eapply rootl_len; eauto. Qed.
Lemma leavesl_len fuel : forall h v p h' k, leaves_loop_n fuel h v p = Ret (h', k) -> length (h_heap h') = length (h_heap h).
Proof.
  induction fuel as [|f IH]; intros h v p h' k E; [discriminate|]. cbn [leaves_loop_n] in E.
  apply bindC_ret in E as ([sp sv] & k1 & k2 & E1 & E & ->). apply bindC_ret in E as (q & k3 & k4 & E2 & E & ->).
  destruct (Nat.eqb q p); [inversion E; auto|]. apply bindC_ret in E as (h1 & k5 & k6 & A1 & E & ->). apply units_ret in A1 as [A1 _]. apply swap_length in A1. apply IH in E. congruence.
Qed.
Lemma enqueue_q h i h' k : enqueue_n h i = Ret (h', k) ->
  length (h_heap h) <= length (h_heap h') <= S (length (h_heap h)) /\ k <= 2 * Nat.log2 (length (h_heap h')).
Proof.
  intro E. pose proof E as E0. apply (proj1 (heap_logarithmic h)) in E0.
  apply bindC_ret in E as (p & k1 & k2 & E1 & E & ->). apply units_ret in E1 as [_ ->].
  destruct (pos_in h p); [inversion E; subst; lia|]. apply bindC_ret in E as (ps & k3 & k4 & E1 & E & ->). apply units_ret in E1 as [_ ->].
  apply root_len in E. cbn [h_heap] in E. rewrite app_length in E. cbn [length] in E. rewrite E. lia.
Qed.
Lemma increase_q h i f h' k : increase_n h i f = Ret (h', k) ->
  length (h_heap h') = length (h_heap h) /\ k <= 2 * Nat.log2 (length (h_heap h)).
Proof.
  intro E. pose proof E as E0. apply (proj1 (proj2 (heap_logarithmic h))) in E0. split; [|exact E0].
  apply bindC_ret in E as (v & k1 & k2 & E1 & E & ->). apply bindC_ret in E as (vs & k3 & k4 & E2 & E & ->). apply bindC_ret in E as (p & k5 & k6 & E3 & E & ->).
  destruct (pos_in _ p); [|inversion E; reflexivity]. apply root_len in E. exact E.
Qed.
Lemma pop_q h o h' k : pop_max_n h = Ret ((o, h'), k) ->
  match o with
  | Some _ => length (h_heap h) = S (length (h_heap h')) /\ k <= 3 * Nat.log2 (length (h_heap h)) + 1
  | None => h' = h /\ k = 0
  end.
Proof.
  intro E. pose proof E as E0. apply (proj1 (proj2 (proj2 (heap_logarithmic h)))) in E0. unfold pop_max_n in E. destruct (h_heap h) as [|i t] eqn:Eh; [inversion E; auto|].
  assert (L : length (h_heap h) = S (length t)) by (rewrite Eh; reflexivity). rewrite <- Eh in *. cbv zeta in E. destruct (Nat.eqb_spec (length (h_heap h) - 1) 0) as [Z|Z].
  - apply bindC_ret in E as (h1 & k1 & k2 & E1 & E & ->). apply units_ret in E1 as [E1 ->]. apply clear_length in E1. inversion E; subst. split; [|exact E0].
    pose proof (pop_length h1) as P. lia.
  - apply bindC_ret in E as (h1 & k1 & k2 & E1 & E & ->). apply units_ret in E1 as [E1 ->]. apply swap_length in E1.
    apply bindC_ret in E as (h2 & k3 & k4 & E2 & E & ->). apply units_ret in E2 as [E2 ->]. apply clear_length in E2.
    apply bindC_ret in E as (h3 & k5 & k6 & E3 & E & ->). inversion E; subst. split; [|exact E0].
    apply bindC_ret in E3 as (v & j1 & j2 & _ & E3 & ->). apply leavesl_len in E3. pose proof (pop_length h2) as P. lia.
Qed.

(** ** The operations of a step *)
Definition lg (n : nat) : nat := 3 * Nat.log2 n + 1.
Lemma popl_q vals n fuel : forall h o h' k, length (h_heap h) <= n -> pop_loop_q fuel h vals = Ret ((o, h'), k) ->
  k + lg n * length (h_heap h') <= lg n * length (h_heap h) /\ length (h_heap h') <= length (h_heap h).
Proof.
  induction fuel as [|f IH]; intros h o h' k Hn E; [discriminate|]. cbn [pop_loop_q] in E.
  apply bindC_ret in E as ([o1 h1] & k1 & k2 & E1 & E & ->). apply pop_q in E1. destruct o1 as [v|]; [|inversion E; destruct E1; subst; lia].
  destruct E1 as [L K]. pose proof (Nat.log2_le_mono _ _ Hn) as G. assert (K' : k1 <= lg n) by (unfold lg; lia).
  apply bindC_ret in E as (a & k3 & k4 & E2 & E & ->). apply units_ret in E2 as [_ ->].
  assert (Q : k4 + lg n * length (h_heap h') <= lg n * length (h_heap h1) /\ length (h_heap h') <= length (h_heap h1)).
  { destruct a; cbn [negb] in E; [apply IH in E; [exact E|lia]|inversion E; subst; lia]. }
  rewrite L, Nat.mul_succ_r. lia.
Qed.
Lemma popd_q vals n v o v' k : ql v <= n -> pop_decision_var_q v vals = Ret ((o, v'), k) -> k + lg n * ql v' <= lg n * ql v /\ ql v' <= ql v.
Proof.
  intros Hn E. apply bindC_ret in E as ([o1 h] & k1 & k2 & E1 & E & ->). inversion E; subst. apply (popl_q _ n) in E1; [|exact Hn]. unfold ql in *. cbn [vs_activity]. lia.
Qed.
Lemma unassigns_q dbg ss : forall st st' k, foldC (unassign_step_q dbg) ss st = Ret (st', k) ->
  ql (cb_vsids (fst (fst st))) <= ql (cb_vsids (fst (fst st'))) <= ql (cb_vsids (fst (fst st))) + length ss /\
  k <= length ss * (2 * Nat.log2 (ql (cb_vsids (fst (fst st'))))).
Proof.
  induction ss as [|s ss IH]; intros [[cb vals] ti] st' k E; cbn [foldC] in E; [inversion E; subst; cbn; lia|].
  apply bindC_ret in E as (st1 & k1 & k2 & E1 & E & ->). apply IH in E as [E2 E3].
  apply bindC_ret in E1 as (cb1 & j1 & j2 & A1 & A2 & ->). apply bindC_ret in A2 as (v1 & j3 & j4 & A2 & A3 & ->). apply units_ret in A2 as [_ ->].
  apply bindC_ret in A3 as (t1 & j5 & j6 & A3 & A4 & ->). apply units_ret in A3 as [_ ->]. inversion A4; subst st1 j6. clear A4. cbn [fst] in *.
  apply bindC_ret in A1 as (v2 & i1 & i2 & A1 & A4 & ->). apply bindC_ret in A4 as (ph & i3 & i4 & A4 & A5 & ->). apply units_ret in A4 as [_ ->]. inversion A5; subst cb1 i4.
  apply bindC_ret in A1 as (h & m1 & m2 & A1 & A6 & ->). inversion A6; subst v2 m2. apply enqueue_q in A1. unfold ql in *. cbn [cb_vsids vs_activity] in *.
  destruct A1 as [A1 A7]. pose proof (Nat.log2_le_mono _ _ (proj1 E2)) as G. cbn [length]. rewrite Nat.mul_succ_l. lia.
Qed.
Lemma back_q dbg p lv cb p' cb' k : backtrack_to_level_q dbg p lv cb = Ret ((p', cb'), k) ->
  ql (cb_vsids cb) <= ql (cb_vsids cb') <= ql (cb_vsids cb) + length (t_steps (p_trail p)) /\
  k <= length (t_steps (p_trail p)) * (2 * Nat.log2 (ql (cb_vsids cb'))).
Proof.
  unfold backtrack_to_level_q. cbv zeta. intro E. destruct (Nat.ltb _ _); [|discriminate]. apply bindC_ret in E as (target & k1 & k2 & E1 & E & ->). apply units_ret in E1 as [_ ->].
  destruct (Nat.leb _ _); [|discriminate]. apply bindC_ret in E as ([[cb1 v1] t1] & k3 & k4 & E1 & E & ->). inversion E; subst. apply unassigns_q in E1. cbn [fst] in E1.
  assert (L : length (skipn target (t_steps (p_trail p))) <= length (t_steps (p_trail p))) by (rewrite skipn_length; lia).
  split; [lia|]. destruct E1 as [_ E1]. pose proof (Nat.mul_le_mono_r _ _ (2 * Nat.log2 (ql (cb_vsids cb'))) L). lia.
Qed.
(** *** The marked trail positions pay for the bumps. *)
Definition marks (T : nat) (an : analysis) : nat := length (filter (fun b : bool => b) (firstn T (an_current an))).
Lemma marks_le T an : marks T an <= T.
Proof.
  unfold marks. pose proof (firstn_le_length T (an_current an)). assert (G : forall l : list bool, length (filter (fun b => b) l) <= length l); [|specialize (G (firstn T (an_current an))); lia].
  induction l as [|b l IH]; [auto|]. cbn [filter]. destruct b; cbn [length]; lia.
Qed.
Lemma marks_upd T (c : list bool) i b old : nth_error c i = Some old -> i < T ->
  length (filter (fun b => b) (firstn T (upd c i b))) + (if old then 1 else 0) = length (filter (fun b => b) (firstn T c)) + (if b then 1 else 0).
Proof.
  revert c i. induction T as [|T IH]; intros c i E L; [lia|]. destruct c as [|x c]; [destruct i; discriminate|]. destruct i as [|i].
  - cbn [nth_error] in E. inversion E; subst. cbn [upd firstn filter]. destruct b, old; cbn [length]; lia.
  - cbn [nth_error] in E. specialize (IH c i E ltac:(lia)). cbn [upd firstn filter]. destruct x; cbn [length]; lia.
Qed.
Lemma ret_inj {A B} (a c : A) (b d : B) : Ret (a, b) = Ret (c, d) -> c = a /\ d = b.
Proof. intro E. inversion E. auto. Qed.
Lemma bump_q v l v' k : bump_var_q v l = Ret (v', k) -> ql v' = ql v /\ k <= 2 * Nat.log2 (ql v).
Proof.
  intro E. apply bindC_ret in E as (old & k1 & k2 & E1 & E & ->). apply units_ret in E1 as [_ ->]. apply bindC_ret in E as (h & k3 & k4 & E1 & E & ->).
  apply increase_q in E1. cbv beta zeta in E. revert E. match goal with |- context [if ?b then _ else _] => generalize b end. intros b E. apply ret_inj in E as [-> ->]. unfold ql in *.
  destruct b; cbn [vsids_rescale apply_monotone vs_activity h_heap]; lia.
Qed.
Lemma add_q t an cb l an' cb' k : add_literal_q t (an, cb) l = Ret ((an', cb'), k) ->
  ql (cb_vsids cb') = ql (cb_vsids cb) /\ exists b, k <= b * (2 * Nat.log2 (ql (cb_vsids cb))) /\ marks (length (t_steps t)) an' = marks (length (t_steps t)) an + b.
Proof.
  intro E. apply bindC_ret in E as (i & k1 & k2 & E1 & E & ->). apply units_ret in E1 as [E1 ->]. apply bindC_ret in E as (s & k3 & k4 & E2 & E & ->). apply units_ret in E2 as [E2 ->].
  apply vget_ok in E2. assert (Li : i < length (t_steps t)) by (apply nth_error_Some; congruence). cbv zeta in E. destruct (Nat.eqb (s_level s) 0); [inversion E; subst; split; [auto|exists 0; lia]|].
  apply bindC_ret in E as (old & k5 & k6 & E3 & E & ->). apply units_ret in E3 as [E3 ->]. apply vget_ok in E3. apply bindC_ret in E as (cur & k7 & k8 & E4 & E & ->). apply units_ret in E4 as [E4 ->].
  apply vset_ok in E4 as [_ ->]. pose proof (marks_upd _ _ _ true _ E3 Li) as M. fold (marks (length (t_steps t)) an) in M. destruct old.
  - inversion E; subst. split; [auto|]. exists 0. split; [lia|]. unfold marks at 1. cbn [an_current an_set_current]. lia.
  - apply bindC_ret in E as (cb1 & j1 & j2 & E5 & E & ->). apply bindC_ret in E5 as (v & j3 & j4 & E5 & E6 & ->). inversion E6; subst cb1 j4. apply bump_q in E5 as [Q1 Q2].
    destruct (Nat.eqb (s_level s) _); inversion E; subst; cbn [cb_vsids]; (split; [exact Q1|]); exists 1; (split; [lia|]); unfold marks at 1; cbn [an_current an_set_current an_set_count an_set_derived]; lia.
Qed.
Lemma adds_q t ls : forall an cb an' cb' k, foldC (add_literal_q t) ls (an, cb) = Ret ((an', cb'), k) ->
  ql (cb_vsids cb') = ql (cb_vsids cb) /\ exists b, k <= b * (2 * Nat.log2 (ql (cb_vsids cb))) /\ marks (length (t_steps t)) an' = marks (length (t_steps t)) an + b.
Proof.
  induction ls as [|l ls IH]; intros an cb an' cb' k E; cbn [foldC] in E; [inversion E; subst; split; [auto|exists 0; lia]|].
  apply bindC_ret in E as ([an1 cb1] & k1 & k2 & E1 & E & ->). apply add_q in E1 as (A1 & b1 & A2 & A3). apply IH in E as (B1 & b2 & B2 & B3).
  split; [congruence|]. exists (b1 + b2). rewrite A1 in B2. rewrite Nat.mul_add_distr_r. lia.
Qed.
Lemma uip_q T n : n <= T -> forall p an cb p' an' cb' k, length (t_steps (p_trail p)) = T -> uip_loop_q n p an cb = Ret ((p', an', cb'), k) ->
  ql (cb_vsids cb') = ql (cb_vsids cb) /\ t_steps (p_trail p') = t_steps (p_trail p) /\ exists b, k <= b * (2 * Nat.log2 (ql (cb_vsids cb))) /\ marks T an + b <= T + n.
Proof.
  induction n as [|n IH]; intros Hn p an cb p' an' cb' k HT E; cbn [uip_loop_q] in E.
  { inversion E; subst. split; [auto|]. split; [auto|]. exists 0. pose proof (marks_le (length (t_steps (p_trail p'))) an'). lia. }
  cbv zeta in E. apply bindC_ret in E as (cur & k1 & k2 & E1 & E & ->). apply units_ret in E1 as [E1 ->]. apply vget_ok in E1.
  apply bindC_ret in E as (cs & k3 & k4 & E2 & E & ->). apply units_ret in E2 as [E2 ->]. apply vset_ok in E2 as [_ ->].
  pose proof (marks_upd T _ _ false _ E1 ltac:(lia)) as M. fold (marks T an) in M. assert (M' : marks T an <= S (marks T (an_set_current an (upd (an_current an) n false)))).
  { unfold marks at 2. cbn [an_current an_set_current]. destruct cur; lia. }
  destruct (negb cur). { apply IH in E; [|lia|exact HT]. destruct E as (A1 & A2 & b & A3 & A4). split; [auto|]. split; [auto|]. exists b. lia. }
  apply bindC_ret in E as (s & k5 & k6 & E3 & E & ->). apply units_ret in E3 as [E3 ->]. destruct (Nat.ltb 0 _); [|discriminate]. destruct (Nat.eqb _ 0).
  { apply bindC_ret in E as (cs' & k7 & k8 & E4 & E & ->). apply units_ret in E4 as [E4 ->]. inversion E; subst. split; [auto|]. split; [auto|]. exists 0.
    pose proof (marks_le (length (t_steps (p_trail p'))) an). lia. }
  apply bindC_ret in E as ([p1 an3] & k7 & k8 & E4 & E & ->). apply units_ret in E4 as [E4 ->].
  assert (Q : t_steps (p_trail p1) = t_steps (p_trail p) /\ an_current an3 = upd (an_current an) n false).
  { destruct (s_reason s); try (inversion E4; subst; auto; fail). destruct (bump_long_clause _ _ _ _) as [[a' g']| |]; cbn [bind] in E4; try discriminate. inversion E4; subst. auto. }
  destruct Q as [Q1 Q2]. apply bindC_ret in E as (rl & j1 & j2 & E5 & E & ->). apply units_ret in E5 as [E5 ->].
  apply bindC_ret in E as ([an4 cb1] & j3 & j4 & E6 & E & ->). apply adds_q in E6 as (A1 & b1 & A2 & A3). apply IH in E; [|lia|congruence].
  destruct E as (B1 & B2 & b2 & B3 & B4). split; [congruence|]. split; [congruence|]. exists (b1 + b2). rewrite A1 in B3. rewrite HT in A3.
  assert (marks T an3 = marks T (an_set_current an (upd (an_current an) n false))) by (unfold marks; rewrite Q2; reflexivity). rewrite Nat.mul_add_distr_r. lia.
Qed.
Lemma derive_q an p c cb p' an' cb' k : derive_1uip_clause_q an p c cb = Ret ((p', an', cb'), k) ->
  ql (cb_vsids cb') = ql (cb_vsids cb) /\ t_steps (p_trail p') = t_steps (p_trail p) /\ k <= 2 * length (t_steps (p_trail p)) * (2 * Nat.log2 (ql (cb_vsids cb))).
Proof.
  unfold derive_1uip_clause_q. cbv zeta. intro E. apply bindC_ret in E as ([p1 an2] & k1 & k2 & E1 & E & ->). apply units_ret in E1 as [E1 ->].
  assert (Q : t_steps (p_trail p1) = t_steps (p_trail p)).
  { destruct c; [inversion E1; subst; auto|]. destruct (bump_long_clause _ _ _ _) as [[a' g']| |]; cbn [bind] in E1; try discriminate. inversion E1; subst. auto. }
  apply bindC_ret in E as (ls & k3 & k4 & E2 & E & ->). apply units_ret in E2 as [E2 ->].
  apply bindC_ret in E as ([an3 cb1] & k5 & k6 & E3 & E & ->). apply adds_q in E3 as (A1 & b1 & A2 & A3).
  apply bindC_ret in E as ([[p2 an4] cb2] & k7 & k8 & E4 & E & ->). apply (uip_q (length (t_steps (p_trail p))) _ (le_n _)) in E4; [|congruence]. destruct E4 as (B1 & B2 & b2 & B3 & B4).
  destruct (Nat.eqb _ 0); [|discriminate]. inversion E; subst. split; [congruence|]. split; [congruence|]. rewrite A1 in B3.
  assert (G : b1 + b2 <= 2 * length (t_steps (p_trail p))) by lia. apply (Nat.mul_le_mono_r _ _ (2 * Nat.log2 (ql (cb_vsids cb)))) in G. rewrite Nat.mul_add_distr_r in G. lia.
Qed.
Lemma analyze_q dbg cx an p c cb cx' an' p' cb' k n : analyze_conflict_q dbg cx an p c cb = Ret ((cx', an', p', cb'), k) ->
  length (t_steps (p_trail p)) <= n -> ql (cb_vsids cb') <= n ->
  k + lg n * ql (cb_vsids cb') <= lg n * ql (cb_vsids cb) + 4 * n * lg n.
Proof.
  unfold analyze_conflict_q. intros E HT Hn. destruct (negb _); [|discriminate]. apply bindC_ret in E as ([[p1 an1] cb1] & k1 & k2 & E1 & E & ->). apply derive_q in E1 as (A1 & A2 & A3).
  apply bindC_ret in E as ([lv an2] & k3 & k4 & E2 & E & ->). apply units_ret in E2 as [E2 ->].
  apply bindC_ret in E as ([p2 cb3] & k5 & k6 & E3 & E & ->). apply back_q in E3 as [B1 B2]. rewrite A2 in *.
  apply bindC_ret in E as ([[cx1 an3] p3] & k7 & k8 & E4 & E & ->). apply units_ret in E4 as [E4 ->]. inversion E; subst. clear E.
  assert (D : ql (cb_vsids (cb_analyzed_conflict cb1)) = ql (cb_vsids cb1)).
  { unfold cb_analyzed_conflict, vsids_decay, ql. cbn [cb_vsids]. destruct (SFltb _ _); reflexivity. }
  rewrite D, A1 in B1. set (T := length (t_steps (p_trail p))) in *. set (q := ql (cb_vsids cb)) in *. set (q' := ql (cb_vsids cb')) in *.
  assert (L1 : 2 * Nat.log2 q <= lg n) by (pose proof (Nat.log2_le_mono q n ltac:(lia)); unfold lg; lia).
  assert (L2 : 2 * Nat.log2 q' <= lg n) by (pose proof (Nat.log2_le_mono q' n ltac:(lia)); unfold lg; lia).
  pose proof (Nat.mul_le_mono (2 * T) (2 * n) _ _ ltac:(lia) L1) as M1. pose proof (Nat.mul_le_mono T n _ _ HT L2) as M2.
  assert (M3 : lg n * q' <= lg n * q + lg n * n) by (rewrite <- Nat.mul_add_distr_l; apply Nat.mul_le_mono_l; lia).
  rewrite (Nat.mul_comm (lg n) n) in M3. rewrite <- Nat.mul_assoc in M1. rewrite <- (Nat.mul_assoc 4). lia.
Qed.
Lemma restart_cost dbg cx se cx' se' k n : restart_q dbg cx se = Ret ((cx', se'), k) ->
  length (t_steps (p_trail (se_prop se))) <= n -> ql (se_vsids se') <= n ->
  k + lg n * ql (se_vsids se') <= lg n * ql (se_vsids se) + 2 * n * lg n.
Proof.
  unfold restart_q. cbv zeta. intros E HT Hn. destruct (Nat.ltb _ _); [|inversion E; subst; lia].
  apply bindC_ret in E as ([p1 cb1] & k1 & k2 & E1 & E & ->). inversion E; subst. cbn [se_vsids] in *. apply back_q in E1 as [B1 B2]. cbn [cb_vsids] in B1.
  set (T := length (t_steps (p_trail (se_prop se)))) in *. set (q := ql (se_vsids se)) in *. set (q' := ql (cb_vsids cb1)) in *.
  assert (L2 : 2 * Nat.log2 q' <= lg n) by (pose proof (Nat.log2_le_mono q' n ltac:(lia)); unfold lg; lia).
  pose proof (Nat.mul_le_mono T n _ _ HT L2) as M2.
  assert (M3 : lg n * q' <= lg n * q + lg n * n) by (rewrite <- Nat.mul_add_distr_l; apply Nat.mul_le_mono_l; lia).
  rewrite (Nat.mul_comm (lg n) n) in M3. rewrite <- (Nat.mul_assoc 2). lia.
Qed.

(** ** One step *)
Lemma SI_ql K n F L steps es cx se : SI K n F L steps es cx se -> ql (se_vsids se) <= n.
Proof.
  intro H. destruct (s_cb _ _ _ _ _ _ _ _ H) as [A B _]. cbn [cb_vsids] in *. unfold ql. rewrite <- B. rewrite <- (seq_length (length (h_values (vs_activity (se_vsids se)))) 0).
  apply NoDup_incl_length.
  - apply NoDup_nth_error. intros i j Hi E. destruct (nth_error (h_heap (vs_activity (se_vsids se))) i) as [x|] eqn:Ei; [|apply nth_error_None in Ei; lia].
    pose proof (hs_pos _ A _ _ Ei) as P1. symmetry in E. pose proof (hs_pos _ A _ _ E) as P2. congruence.
  - intros x Hx. apply In_nth_error in Hx as [i Ei]. pose proof (hs_pos _ A _ _ Ei) as P. apply in_seq. split; [lia|]. rewrite <- (hs_len _ A). apply nth_error_Some. cbn. congruence.
Qed.
Lemma trail_le K n F L steps es cx se : SI K n F L steps es cx se -> K = 0 -> length (t_steps (p_trail (se_prop se))) <= n.
Proof.
  intros H ->. pose proof (trail_bound _ _ _ _ (pi_vr _ _ _ _ (s_pi _ _ _ _ _ _ _ _ H)) (s_dup _ _ _ _ _ _ _ _ H)). lia.
Qed.
Definition pay (n : nat) (cx cx' : ctx) : nat :=
  (4 * (st_conflicts (cx_stats cx') - st_conflicts (cx_stats cx)) + 2 * (st_restarts (cx_stats cx') - st_restarts (cx_stats cx))) * (n * lg n).
Definition grows (cx cx' : ctx) : Prop := st_conflicts (cx_stats cx) <= st_conflicts (cx_stats cx') /\ st_restarts (cx_stats cx) <= st_restarts (cx_stats cx').
Lemma RW_step_q dbg w a F cx se L steps es r cx' se' k : RW w a F cx se L steps es -> search_step_q dbg cx se = Ret ((r, cx', se'), k) ->
  k + lg (cnf_vars F) * ql (se_vsids se') <= lg (cnf_vars F) * ql (se_vsids se) + pay (cnf_vars F) cx cx' /\ grows cx cx'.
Proof.
  intros H E. unfold search_step_q in E. destruct (p_unsat (se_prop se)) eqn:Eu.
  { inversion E; subst. unfold grows. split; lia. }
  apply bindC_ret in E as (p0 & k1 & k2 & E0 & E & ->). apply units_ret in E0 as [E0 ->].
  destruct (RW_collect dbg _ _ _ _ _ _ _ _ _ H E0) as (es0 & H0). clear H. rename H0 into H. set (se0 := with_prop se p0) in *.
  apply bindC_ret in E as ([[cx1 p1] r1] & k3 & k4 & E1 & E & ->). apply units_ret in E1 as [E1 ->].
  pose proof (rw_si _ _ _ _ _ _ _ _ H) as HI. pose proof (SI_ql _ _ _ _ _ _ _ _ HI) as Q0. change (se_vsids se0) with (se_vsids se) in Q0.
  destruct (SI_propagate dbg _ _ _ _ _ _ _ _ HI) as (cx2 & p2 & es1 & r2 & E2 & H1 & HX & HQ & HR). change (se_prop se0) with p0 in *.
  rewrite E1 in E2. inversion E2; subst cx2 p2 r2. clear E2. pose proof (trail_le _ _ _ _ _ _ _ _ H1 eq_refl) as T. cbn [se_prop] in T.
  destruct r1 as [c|].
  - destruct HR as [HC ->].
    assert (H2 : SI 0 (cnf_vars F) F L steps es1 (bump_conflicts cx) (mkSearch p1 (se_analysis se0) (se_vsids se0) (se_phases se0))).
    { eapply SI_ctx; [exact H1|..]; try reflexivity. apply H1. }
    assert (C1 : st_conflicts (cx_stats (bump_conflicts cx)) = S (st_conflicts (cx_stats cx)) /\ st_restarts (cx_stats (bump_conflicts cx)) = st_restarts (cx_stats cx)).
    { unfold bump_conflicts, cx_with; cbn [cx_stats st_conflicts st_restarts]. split; [lia|auto]. }
    destruct C1 as [C1 C2].
    destruct (Nat.eqb_spec (decision_level (p_trail p1)) 0) as [Hd|Hd].
    + inversion E; subst r cx' se' k4. unfold grows. cbn [se_vsids]. split; lia.
    + apply bindC_ret in E as ([[[cx3 an] p3] cb] & k5 & k6 & E3 & E & ->). inversion E; subst r cx' se' k6. cbn [se_vsids].
      assert (E3' : analyze_conflict dbg (bump_conflicts cx) (se_analysis se) p1 c (mkCb (se_vsids se) (se_phases se)) = Ret (cx3, an, p3, cb)).
      { rewrite <- er_analyzeq. rewrite E3. reflexivity. }
      assert (D : st_conflicts (cx_stats cx3) = S (st_conflicts (cx_stats cx)) /\ st_restarts (cx_stats cx3) = st_restarts (cx_stats cx) /\ ql (cb_vsids cb) <= cnf_vars F).
      { destruct (SI_analyze_nd dbg _ _ _ _ _ _ _ _ c H2 HC) as [[E4 _]|R]; [cbn [se_prop]; lia|cbn [se_analysis se_prop se_vsids se_phases se0 with_prop] in E4; rewrite E3' in E4; discriminate|].
        destruct R as (cx5 & an5 & p5 & cb5 & es5 & cl & level & target & r5 & a5 & E5 & H5 & _ & _ & _ & _ & (h & Ecx) & _).
        cbn [se_analysis se_prop se_vsids se_phases se0 with_prop] in E5. rewrite E3' in E5. injection E5 as -> -> -> ->. apply SI_ql in H5. cbn [se_vsids] in H5.
        rewrite Ecx. cbn [cx_stats]. rewrite <- C1, <- C2. unfold st_add. destruct cl as [|? [|? [|]]]; auto. destruct (lh_redundant h); auto. }
      destruct D as (D1 & D2 & D3). pose proof (analyze_q _ _ _ _ _ _ _ _ _ _ _ (cnf_vars F) E3 T D3) as B. cbn [cb_vsids] in B. unfold pay, grows. rewrite D1, D2.
      replace (S (st_conflicts (cx_stats cx)) - st_conflicts (cx_stats cx)) with 1 by lia. rewrite Nat.sub_diag, <- (Nat.mul_assoc 4) in *. lia.
  - destruct HR as [HQ1 Ecx].
    assert (X1 : st_conflicts (cx_stats cx1) = st_conflicts (cx_stats cx) /\ st_restarts (cx_stats cx1) = st_restarts (cx_stats cx)) by (rewrite Ecx; split; reflexivity).
    apply bindC_ret in E as ([ov vs] & j1 & j2 & E3 & E & ->). apply (popd_q _ (cnf_vars F)) in E3; [|exact Q0].
    assert (Z : se_vsids se' = vs /\ j2 = 0 /\ st_conflicts (cx_stats cx') = st_conflicts (cx_stats cx) /\ st_restarts (cx_stats cx') = st_restarts (cx_stats cx)).
    { destruct ov as [v|]; [|inversion E; subst; tauto].
      apply bindC_ret in E as (l & j3 & j4 & E4 & E & ->). apply units_ret in E4 as [E4 ->]. apply bindC_ret in E as (p4 & j5 & j6 & E5 & E & ->). apply units_ret in E5 as [E5 ->].
      inversion E; subst. cbn [bump_decisions cx_with cx_stats st_conflicts st_restarts se_vsids]. tauto. }
    destruct Z as (-> & -> & Z1 & Z2). unfold grows. split; lia.
Qed.
Lemma reduce_vsids select cx se cx' se' : reduce select cx se = Ret (cx', se') -> se_vsids se' = se_vsids se.
Proof.
  unfold reduce. cbv zeta. intro E. apply bind_ret in E as (a1 & _ & E). apply bind_ret in E as ([a2 cands] & _ & E).
  apply bind_ret in E as ([cx2 a3] & _ & E). apply bind_ret in E as (a4 & _ & E). inversion E. reflexivity.
Qed.
Lemma RW_schedule_q select dbg w a F cx st L steps es r cx' st' k : anysel select -> RW w a F cx (sta_search st) L steps es ->
  schedule_search_step_q select dbg cx st = Ret ((r, cx', st'), k) ->
  k + lg (cnf_vars F) * ql (se_vsids (sta_search st')) <= lg (cnf_vars F) * ql (se_vsids (sta_search st)) + pay (cnf_vars F) cx cx' /\ grows cx cx'.
Proof.
  intros Hs H E. unfold schedule_search_step_q in E. destruct (should_restart _ _) as [dr sc1].
  apply bindC_ret in E as ([cx1 se1] & k1 & k2 & E1 & E & ->). set (n := cnf_vars F) in *.
  assert (H1 : exists es1, RW w a F cx1 se1 L steps es1 /\ k1 + lg n * ql (se_vsids se1) <= lg n * ql (se_vsids (sta_search st)) + pay n cx cx1 /\ grows cx cx1).
  { destruct dr; [|inversion E1; subst; exists es; split; [auto|]; split; [lia|unfold grows; lia]].
    assert (E1' : restart dbg cx (sta_search st) = Ret (cx1, se1)) by (rewrite <- er_restartq, E1; reflexivity).
    destruct (RW_restart _ _ _ _ _ _ _ _ _ _ _ H E1') as (es1 & H1). exists es1. split; [auto|].
    destruct (SI_restart dbg _ _ _ _ _ _ _ _ (rw_si _ _ _ _ _ _ _ _ H)) as (cx4 & se4 & E4 & _ & Ecx & _). rewrite E1' in E4. injection E4 as <- <-.
    pose proof (restart_cost _ _ _ _ _ _ n E1 (trail_le _ _ _ _ _ _ _ _ (rw_si _ _ _ _ _ _ _ _ H) eq_refl) (SI_ql _ _ _ _ _ _ _ _ (rw_si _ _ _ _ _ _ _ _ H1))) as B.
    subst cx1. unfold pay, grows. cbn [bump_restarts cx_with cx_stats st_conflicts st_restarts]. rewrite Nat.sub_diag. replace (st_restarts (cx_stats cx) + 1 - st_restarts (cx_stats cx)) with 1 by lia.
    rewrite <- (Nat.mul_assoc 2) in B. lia. }
  destruct H1 as (es1 & H1 & B1 & G1). destruct (should_reduce _ _) as [dd sc2].
  apply bindC_ret in E as ([cx2 se2] & k3 & k4 & E2 & E & ->). apply units_ret in E2 as [E2 ->].
  assert (H2 : exists L2 steps2 es2, RW w a F cx2 se2 L2 steps2 es2 /\ st_conflicts (cx_stats cx2) = st_conflicts (cx_stats cx1) /\ st_restarts (cx_stats cx2) = st_restarts (cx_stats cx1) /\ se_vsids se2 = se_vsids se1).
  { destruct dd; [|inversion E2; subst; eauto 10]. destruct (reduce select cx1 se1) as [[cx4 se4]| |] eqn:E4; cbn [bind] in E2; try discriminate.
    destruct (report _ _); cbn [bind] in E2; try discriminate. inversion E2; subst. destruct (RW_reduce _ _ _ _ _ _ _ _ _ _ _ Hs H1 E4) as (L2 & steps2 & es2 & H2).
    exists L2, steps2, es2. split; [auto|].
    destruct (SI_reduce select _ _ _ _ _ _ _ _ _ Hs (rw_si _ _ _ _ _ _ _ _ H1)) as (cx5 & se5 & L5 & es5 & lls & E5 & _ & Ecx & _ & _ & Ev & _). rewrite E4 in E5. injection E5 as <- <-. rewrite Ecx. repeat split. eapply reduce_vsids; eauto. }
  destruct H2 as (L2 & steps2 & es2 & H2 & C2 & R2 & V2).
  apply bindC_ret in E as ([[r3 cx3] se3] & k5 & k6 & E3 & E & ->). inversion E; subst. destruct (RW_step_q _ _ _ _ _ _ _ _ _ _ _ _ _ H2 E3) as [B3 G3]. fold n in B3.
  cbn [sta_search]. rewrite V2 in B3. unfold grows, pay in *. rewrite C2, R2 in *. split; [|lia].
  set (X := n * lg n) in *. set (c0 := st_conflicts (cx_stats cx)) in *. set (c1 := st_conflicts (cx_stats cx1)) in *. set (c3 := st_conflicts (cx_stats cx')) in *.
  set (r0 := st_restarts (cx_stats cx)) in *. set (r1 := st_restarts (cx_stats cx1)) in *. set (r5 := st_restarts (cx_stats cx')) in *.
  replace (4 * (c3 - c0) + 2 * (r5 - r0)) with ((4 * (c1 - c0) + 2 * (r1 - r0)) + (4 * (c3 - c1) + 2 * (r5 - r1))) by lia. rewrite Nat.mul_add_distr_r. lia.
Qed.
