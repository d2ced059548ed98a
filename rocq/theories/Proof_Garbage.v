(** Words of deleted clauses: only deleting a clause makes them more. *)
From Coq Require Import NArith List Bool Arith Lia ZifyN ZifyNat ZifyBool.
From Verif Require Import Model_Base Model_Lit Model_PartialAssignment Model_Header Model_Arena Model_MutScan Model_Prop
  Model_Heap Model_Vsids Model_Analysis Model_Solver Proof_Base Proof_Size.
Import ListNotations.

Lemma set_header_garbage a c h a' : long_set_header a c h = Ret a' -> a_garbage a' = a_garbage a.
Proof. unfold long_set_header, arena_set_header. intro H. inv_res H. reflexivity. Qed.
Lemma set_lits_garbage a c ls a' : long_set_lits a c ls = Ret a' -> a_garbage a' = a_garbage a.
Proof. unfold long_set_lits, arena_set_lits. intro H. inv_res H. reflexivity. Qed.
Lemma body_garbage dbg wl st w st' act : watch_body dbg wl st w = Ret (st', act) -> a_garbage (p_long (fst st')) = a_garbage (p_long (fst st)).
Proof.
  destruct st as [p r]. unfold watch_body, store_search_pos. intro H.
  destruct (pa_is_true _ _) as [[]| |]; cbn [bind] in H; try discriminate; [inversion H; auto|].
  destruct (long_lits _ _); cbn [bind] in H; try discriminate.
  destruct (Nat.ltb _ _); [inversion H; auto|].
  destruct (long_header_of _ _); cbn [bind] in H; try discriminate.
  destruct (vget _ 0); cbn [bind] in H; try discriminate. destruct (vget _ 1); cbn [bind] in H; try discriminate.
  destruct (select_other _ _ _ _); cbn [bind] in H; try discriminate.
  destruct (pa_is_true _ _) as [[]| |]; cbn [bind] in H; try discriminate; [inversion H; auto|].
  destruct (search_loop _ _ _ _ _) as [[sp found]| |]; cbn [bind] in H; try discriminate.
  destruct (long_set_header _ _ _) as [aw1| |] eqn:E1; cbn [bind] in H; try discriminate. apply set_header_garbage in E1.
  destruct found as [[sl []]|].
  - inversion H; auto.
  - destruct (push_watch _ _ _ _); cbn [bind] in H; try discriminate.
    destruct (long_set_lits _ _ _) as [aw2| |] eqn:E2; cbn [bind] in H; try discriminate. apply set_lits_garbage in E2.
    inversion H; subst. cbn. congruence.
  - destruct (pa_is_false _ _) as [[]| |]; cbn [bind] in H; try discriminate; [inversion H; auto|].
    destruct (long_set_lits _ _ _) as [aw2| |] eqn:E2; cbn [bind] in H; try discriminate. apply set_lits_garbage in E2.
    destruct (assign_raw _ _ _ _) as [[v t]| |]; cbn [bind] in H; try discriminate. inversion H; subst. cbn. congruence.
Qed.
Lemma literal_garbage dbg p l p' r : propagate_literal dbg p l = Ret (p', r) -> a_garbage (p_long p') = a_garbage (p_long p).
Proof.
  unfold propagate_literal, propagate_binary_clauses, propagate_long_clauses. intro H.
  destruct (bin_containing _ _); cbn [bind] in H; try discriminate.
  destruct (binary_loop _ _ _ _) as [[p1 r1]| |] eqn:E; cbn [bind] in H; try discriminate. apply binary_size in E.
  destruct r1; [inversion H; subst; congruence|].
  destruct (watches_take _ _ _) as [[wl ws]| |]; cbn [bind] in H; try discriminate.
  destruct (scan_list _ _ _) as [[[p2 r2] wl']| |] eqn:E2; cbn [bind] in H; try discriminate.
  destruct (watches_restore _ _ _ _); cbn [bind] in H; try discriminate. inversion H; subst. cbn.
  assert (G : a_garbage (p_long (fst (p2, r))) = a_garbage (p_long p)).
  { refine (scan_inv (fun st => a_garbage (p_long (fst st)) = a_garbage (p_long p)) _ _ _ _ _ _ E2 _).
    - intros s x s' act B HS. apply body_garbage in B. congruence.
    - cbn. congruence. }
  exact G.
Qed.
Lemma propagate_loop_garbage dbg fuel : forall p p' r, propagate_loop fuel dbg p = Ret (p', r) -> a_garbage (p_long p') = a_garbage (p_long p).
Proof.
  induction fuel as [|f IH]; intros p p' r H; cbn [propagate_loop] in H; [discriminate|].
  destruct (next_unpropagated_lit _); [|inversion H; auto].
  destruct (propagate_literal _ _ _) as [[p1 r1]| |] eqn:E; cbn [bind] in H; try discriminate. apply literal_garbage in E.
  destruct r1; [inversion H; subst; auto|]. destruct (advance_propagated _ _); cbn [bind] in H; try discriminate.
  apply IH in H. rewrite H. exact E.
Qed.
Lemma propagate_garbage dbg cx p cx' p' r : propagate dbg cx p = Ret (cx', p', r) -> a_garbage (p_long p') = a_garbage (p_long p).
Proof.
  unfold propagate. intro H. destruct (enable_watch_lists _ _ _) as [p0| |] eqn:E; cbn [bind] in H; try discriminate. apply enable_size in E.
  destruct (propagate_loop _ _ _) as [[p1 r1]| |] eqn:E1; cbn [bind] in H; try discriminate. apply propagate_loop_garbage in E1.
  destruct r1; inversion H; subst; congruence.
Qed.
Lemma bump_garbage t a c tmp a' tmp' : bump_long_clause t a c tmp = Ret (a', tmp') -> a_garbage a' = a_garbage a.
Proof.
  unfold bump_long_clause. intro H. destruct (long_lits _ _); cbn [bind] in H; try discriminate.
  destruct (long_header_of _ _); cbn [bind] in H; try discriminate. destruct (compute_glue _ _ _) as [[g tm]| |]; cbn [bind] in H; try discriminate.
  destruct (long_set_header _ _ _) as [aw1| |] eqn:E; cbn [bind] in H; try discriminate. apply set_header_garbage in E. inversion H; subst; auto.
Qed.
Lemma uip_garbage n : forall p an cb p' an' cb', uip_loop n p an cb = Ret (p', an', cb') -> a_garbage (p_long p') = a_garbage (p_long p).
Proof.
  induction n as [|i IH]; intros p an cb p' an' cb' H; cbn [uip_loop] in H; [inversion H; auto|].
  destruct (vget _ _) as [cur| |]; cbn [bind] in H; try discriminate. destruct (vset _ _ _); cbn [bind] in H; try discriminate.
  destruct cur; cbn [negb] in H; [|eauto]. destruct (vget _ _) as [s| |]; cbn [bind] in H; try discriminate.
  destruct (Nat.ltb _ _); [|discriminate]. destruct (Nat.eqb _ _).
  - destruct (foldM _ _ _); cbn [bind] in H; try discriminate. inversion H; auto.
  - destruct (match s_reason s with RLong c => _ | _ => _ end) as [[p1 an3]| |] eqn:E; cbn [bind] in H; try discriminate.
    assert (E1 : a_garbage (p_long p1) = a_garbage (p_long p)).
    { destruct (s_reason s); try (inversion E; subst; auto; fail).
      destruct (bump_long_clause _ _ _ _) as [[a' g']| |] eqn:B; cbn [bind] in E; try discriminate. apply bump_garbage in B. inversion E; subst; auto. }
    destruct (reason_lits _ _); cbn [bind] in H; try discriminate. destruct (foldM _ _ _) as [[an4 cb4]| |]; cbn [bind] in H; try discriminate.
    apply IH in H. congruence.
Qed.
Lemma derive_garbage an p c cb p' an' cb' : derive_1uip_clause an p c cb = Ret (p', an', cb') -> a_garbage (p_long p') = a_garbage (p_long p).
Proof.
  unfold derive_1uip_clause. intro H.
  destruct (match c with CLong c => _ | _ => _ end) as [[p1 an3]| |] eqn:E; cbn [bind] in H; try discriminate.
  assert (E1 : a_garbage (p_long p1) = a_garbage (p_long p)).
  { destruct c; try (inversion E; subst; auto; fail).
    destruct (bump_long_clause _ _ _ _) as [[a' g']| |] eqn:B; cbn [bind] in E; try discriminate. apply bump_garbage in B. inversion E; subst; auto. }
  destruct (conflict_lits _ _); cbn [bind] in H; try discriminate. destruct (foldM _ _ _) as [[an4 cb4]| |]; cbn [bind] in H; try discriminate.
  destruct (uip_loop _ _ _ _) as [[[p2 an5] cb5]| |] eqn:U; cbn [bind] in H; try discriminate. apply uip_garbage in U.
  destruct (Nat.eqb _ _); [|discriminate]. inversion H; subst; congruence.
Qed.

Lemma add_garbage dbg cx p h ls ad cx' p' : add_clause_verbatim dbg cx p h ls = Ret (ad, cx', p') ->
  a_garbage (p_long p') = a_garbage (p_long p) /\ awords (p_long p) <= awords (p_long p').
Proof.
  unfold add_clause_verbatim. intro H. destruct ls as [|a [|b [|c r]]].
  - inversion H; subst; auto.
  - destruct (pa_is_false _ _) as [[]| |]; cbn [bind] in H; try discriminate; [inversion H; subst; auto|].
    unfold assign in H. destruct (assign_raw _ _ _ _) as [[v t]| |]; cbn [bind] in H; try discriminate. inversion H; subst; auto.
  - destruct (bin_add _ _ _); cbn [bind] in H; try discriminate. inversion H; subst; auto.
  - destruct (long_add_clause _ _ _) as [[[o|] a']| |] eqn:E; cbn [bind] in H; try discriminate.
    destruct (watch_clause _ _ _ _); cbn [bind] in H; try discriminate. inversion H; subst. cbn [p_long p_set_watches p_set_long].
    unfold long_add_clause, arena_add_clause in E. destruct (negb _); [|discriminate]. destruct (_ || _); inversion E; subst.
    cbn [a_garbage]. split; auto. unfold awords. cbn [a_buffer]. rewrite app_length. lia.
Qed.
Lemma back_garbage dbg p k cb p' cb' : backtrack_to_level dbg p k cb = Ret (p', cb') -> p_long p' = p_long p.
Proof.
  unfold backtrack_to_level. intro H. destruct (Nat.ltb _ _); [|discriminate]. destruct (vget _ _); cbn [bind] in H; try discriminate.
  destruct (Nat.leb _ _); [|discriminate]. destruct (foldM _ _ _) as [[[c v] ti]| |]; cbn [bind] in H; try discriminate. inversion H; auto.
Qed.
Lemma analyze_garbage dbg cx an p c cb cx' an' p' cb' : analyze_conflict dbg cx an p c cb = Ret (cx', an', p', cb') ->
  a_garbage (p_long p') = a_garbage (p_long p) /\ awords (p_long p) <= awords (p_long p').
Proof.
  unfold analyze_conflict. intro H. destruct (negb _); [|discriminate].
  destruct (derive_1uip_clause _ _ _ _) as [[[p1 an1] cb1]| |] eqn:E1; cbn [bind] in H; try discriminate.
  pose proof (derive_size _ _ _ _ _ _ _ E1) as S1. apply derive_garbage in E1.
  destruct (minimize_derived_clause _ _) as [[lv an2]| |]; cbn [bind] in H; try discriminate.
  destruct (backtrack_to_level _ _ _ _) as [[p2 cb2]| |] eqn:E2; cbn [bind] in H; try discriminate. apply back_garbage in E2.
  destruct (learn_and_assign _ _ _ _) as [[[cx3 an3] p3]| |] eqn:E3; cbn [bind] in H; try discriminate. inversion H; subst.
  rewrite <- E1, <- S1, <- E2. clear - E3. unfold learn_and_assign in E3.
  destruct (if dbg then _ else _); cbn [bind] in E3; try discriminate. destruct (if Nat.ltb 2 _ then _ else _) as [[h an1]| |]; cbn [bind] in E3; try discriminate.
  destruct (add_clause_verbatim _ _ _ _ _) as [[[ad cx2] p1]| |] eqn:E; cbn [bind] in E3; try discriminate. apply add_garbage in E.
  destruct (match ad with AEmpty => _ | _ => _ end); [|inversion E3; subst; auto]. destruct (vget _ _); cbn [bind] in E3; try discriminate.
  unfold assign in E3. destruct (assign_raw _ _ _ _) as [[v t]| |]; cbn [bind] in E3; try discriminate. inversion E3; subst. exact E.
Qed.
(** After garbage collection at most half of the arena is garbage. *)
Definition half (a : arena) : Prop := a_garbage a * 2 <= awords a.
Lemma collect_half dbg p p' : prop_collect_garbage dbg p = Ret p' -> half (p_long p').
Proof.
  unfold prop_collect_garbage, should_collect_garbage. intro H. destruct (Nat.leb_spec (length (a_buffer (p_long p))) (a_garbage (p_long p) * 2)) as [G|G].
  2:{ inversion H; subst. unfold half, awords. lia. }
  unfold collect_garbage_now in H. destruct (_ <=? _)%N; [|discriminate]. destruct (long_collect _) as [[a g]| |] eqn:E; cbn [bind] in H; try discriminate.
  destruct (trail_update_refs _ _); cbn [bind] in H; try discriminate. destruct (watches_update_refs _ _ _); cbn [bind] in H; try discriminate.
  inversion H; subst. cbn. unfold long_collect, collect_garbage in E. destruct (next_clause _ _ _); cbn [bind] in E; try discriminate.
  destruct (gc_loop _ _ _ _ _ _ _) as [[[[ag w2] x2] g2]| |]; cbn [bind] in E; try discriminate. inversion E; subst. unfold half. cbn [a_garbage]. lia.
Qed.
Lemma step_half dbg cx se r cx' se' : search_step dbg cx se = Ret (r, cx', se') -> p_unsat (se_prop se) = false -> half (p_long (se_prop se')).
Proof.
  unfold search_step. intros E Eu. rewrite Eu in E. destruct (prop_collect_garbage dbg (se_prop se)) as [p0| |] eqn:E0; try discriminate. cbn [bind] in E.
  apply collect_half in E0. destruct (propagate dbg cx p0) as [[[cx1 p1] r1]| |] eqn:E1; try discriminate. cbn [bind] in E.
  assert (H1 : half (p_long p1)). { unfold half. rewrite (propagate_size _ _ _ _ _ _ E1), (propagate_garbage _ _ _ _ _ _ E1). exact E0. }
  destruct r1 as [c|].
  - destruct (Nat.eqb _ _); [inversion E; subst; exact H1|].
    destruct (analyze_conflict _ _ _ _ _ _) as [[[[cx3 an] p2] cb]| |] eqn:E2; try discriminate. cbn [bind] in E. inversion E; subst. cbn [se_prop].
    apply analyze_garbage in E2. unfold half in *. lia.
  - destruct (pop_decision_var _ _) as [[ov vs]| |] eqn:E2; try discriminate. cbn [bind] in E. destruct ov as [v|]; [|inversion E; subst; exact H1].
    destruct (decide_phase _ _) as [l| |] eqn:E3; try discriminate. cbn [bind] in E. unfold assign_decision, assign in E.
    destruct (assign_raw _ _ _ _) as [[vv t]| |]; cbn [bind] in E; try discriminate. inversion E; subst. exact H1.
Qed.
