(** The search only uses the decision heuristic through its operations. *)
From Coq Require Import NArith List Bool Arith Lia.
From Verif Require Import Model_Base Model_Lit Model_PartialAssignment Model_Header Model_Arena Model_Prop Model_Heap Model_Vsids
  Model_Analysis Model_Solver Spec Drivers_Solver Drivers_Search Proof_Visited Drivers_Vsids Proof_Base Proof_Backtrack Proof_Size Proof_Solver Proof_Solve Proof_Add Proof_Main.
Import ListNotations.

Notation vh cb := (vhist false (cb_vsids cb)).

Ltac step H := match type of H with
  | bind ?m _ = Ret _ => let E := fresh "E" in destruct m eqn:E; cbn [bind] in H; try discriminate
  end.

Lemma backtrack_vh dbg p k cb p' cb' : backtrack_to_level dbg p k cb = Ret (p', cb') -> vh cb -> vh cb'.
Proof.
  unfold backtrack_to_level. intros H HC. destruct (Nat.ltb _ _); [|discriminate]. step H. destruct (Nat.leb _ _); [|discriminate].
  step H. destruct a0 as [[cb1 v1] t1]. inversion H; subst.
  refine (foldM_inv (fun st => vh (fst (fst st))) _ _ _ _ _ E0 HC).
  intros [[c v] t] s [[c' v'] t'] B HS. cbn [fst] in *. unfold unassign_step, cb_unassign in B.
  destruct (vsids_unassign _ _) as [v2| |] eqn:U; cbn [bind] in B; try discriminate.
  destruct (phases_unassign _ _); cbn [bind] in B; try discriminate.
  destruct (pa_unassign _ _); cbn [bind] in B; try discriminate.
  destruct (if dbg then _ else _); cbn [bind] in B; try discriminate. inversion B; subst. cbn [cb_vsids].
  eapply vh_unassign; eauto.
Qed.

Lemma add_literal_vh t st l st' : add_literal t st l = Ret st' -> vh (snd st) -> vh (snd st').
Proof.
  destruct st as [an cb]. unfold add_literal. intros H HC. cbn [snd] in *. step H. step H.
  destruct (Nat.eqb _ 0); [inversion H; subst; auto|]. step H. step H. destruct a1; [inversion H; subst; auto|].
  unfold cb_var_in_conflict in H. destruct (bump_var _ _) as [v| |] eqn:B; cbn [bind] in H; try discriminate.
  assert (vhist false v) by (eapply vh_bump; eauto).
  destruct (Nat.eqb _ _); inversion H; subst; auto.
Qed.
Lemma add_literals_vh t ls st st' : foldM (add_literal t) ls st = Ret st' -> vh (snd st) -> vh (snd st').
Proof. apply (foldM_inv (fun st => vh (snd st))). intros; eapply add_literal_vh; eauto. Qed.

Lemma uip_vh n : forall p an cb p' an' cb', uip_loop n p an cb = Ret (p', an', cb') -> vh cb -> vh cb'.
Proof.
  induction n as [|i IH]; intros p an cb p' an' cb' H HC; cbn [uip_loop] in H; [inversion H; subst; auto|].
  step H. step H. destruct a; cbn [negb] in H; [|eauto]. step H. destruct (Nat.ltb _ _); [|discriminate]. destruct (Nat.eqb _ _).
  - step H. inversion H; subst; auto.
  - step H. destruct a1 as [p1 an3]. step H. step H. destruct a2 as [an4 cb4]. apply add_literals_vh in E4; auto. eauto.
Qed.

Lemma derive_vh an p c cb p' an' cb' : derive_1uip_clause an p c cb = Ret (p', an', cb') -> vh cb -> vh cb'.
Proof.
  unfold derive_1uip_clause. intros H HC. step H. destruct a as [p1 an2]. step H. step H. destruct a0 as [an3 cb3]. step H.
  destruct a0 as [[p2 an4] cb4]. destruct (Nat.eqb _ _); [|discriminate]. inversion H; subst.
  apply add_literals_vh in E1; auto. eapply uip_vh; eauto.
Qed.

Lemma analyze_vh dbg cx an p c cb cx' an' p' cb' : analyze_conflict dbg cx an p c cb = Ret (cx', an', p', cb') -> vh cb -> vh cb'.
Proof.
  unfold analyze_conflict. intros H HC. destruct (negb _); [|discriminate]. step H. destruct a as [[p1 an1] cb1]. apply derive_vh in E; auto.
  step H. destruct a as [lv an2]. step H. destruct a as [p2 cb3]. apply backtrack_vh in E1; [|constructor; auto].
  step H. destruct a as [[cx3 an3] p3]. inversion H; subst; auto.
Qed.

Lemma restart_vh dbg cx se cx' se' : restart dbg cx se = Ret (cx', se') -> vhist false (se_vsids se) -> vhist false (se_vsids se').
Proof.
  unfold restart. intros H HC. destruct (Nat.ltb _ _); [|inversion H; subst; auto]. step H. destruct a as [p cb]. inversion H; subst.
  apply backtrack_vh in E; auto.
Qed.
Lemma reduce_vh select cx se cx' se' : reduce select cx se = Ret (cx', se') -> se_vsids se' = se_vsids se.
Proof.
  unfold reduce. intro H. step H. step H. destruct a0 as [a2 cs]. step H. destruct a0 as [cx2 a3]. step H. inversion H; subst; auto.
Qed.
Lemma search_step_vh dbg cx se r cx' se' : search_step dbg cx se = Ret (r, cx', se') -> vhist false (se_vsids se) -> vhist false (se_vsids se').
Proof.
  unfold search_step. intros H HC. destruct (p_unsat _); [inversion H; subst; auto|]. step H. step H. destruct a0 as [[cx1 p1] o].
  destruct o as [c|].
  - destruct (Nat.eqb _ _); [inversion H; subst; auto|]. step H. destruct a0 as [[[cx3 an] p2] cb]. inversion H; subst. apply analyze_vh in E1; auto.
  - step H. destruct a0 as [ov vs]. assert (vhist false vs) by (eapply vh_pop; eauto).
    destruct ov as [v|]; [|inversion H; subst; auto]. step H. step H. inversion H; subst; auto.
Qed.
Lemma schedule_vh select dbg cx st r cx' st' : schedule_search_step select dbg cx st = Ret (r, cx', st') ->
  vhist false (se_vsids (sta_search st)) -> vhist false (se_vsids (sta_search st')).
Proof.
  unfold schedule_search_step. intros H HC. destruct (should_restart _ _) as [b sc1]. step H. destruct a as [cx1 se1].
  assert (H1 : vhist false (se_vsids se1)) by (destruct b; [eapply restart_vh; eauto|inversion E; subst; auto]).
  destruct (should_reduce _ _) as [b2 sc2]. step H. destruct a as [cx2 se2].
  assert (H2 : vhist false (se_vsids se2)).
  { destruct b2; [|inversion E0; subst; auto]. step E0. destruct a as [cx3 se3]. step E0. inversion E0; subst. apply reduce_vh in E1. congruence. }
  step H. destruct a as [[r3 cx3] se3]. inversion H; subst. cbn [sta_search]. eapply search_step_vh; eauto.
Qed.

Lemma add_vh dbg K n F L steps es s c s' : SOI K n F L steps es s -> vhist false (se_vsids (sta_search (so_state s))) ->
  solver_add_clause dbg s c = Ret s' -> vhist false (se_vsids (sta_search (so_state s'))).
Proof.
  intros H IH E. unfold solver_add_clause in E. step E. destruct a as [cx1 se1]. step E. destruct a as [[ad cx2] p2]. inversion E; subst. cbn [so_state sta_search se_vsids].
  destruct (Nat.ltb_spec (st_vars (cx_stats (so_ctx s))) (clause_var_count c)) as [Lt|Lt]; [|inversion E0; subst; auto].
  step E0. inversion E0; subst. unfold search_resize in E2. step E2. inversion E2; subst. cbn [se_vsids].
  eapply vh_resize; [exact IH| |eassumption]. intros _. unfold var_count, heap_len.
  pose proof (cb_len _ _ (s_cb _ _ _ _ _ _ _ _ H)) as Q. pose proof (sti_vars _ _ _ _ _ (s_st _ _ _ _ _ _ _ _ H)) as Q2. cbn in Q, Q2. lia.
Qed.
Lemma built_vh dbg F s : built dbg F s -> vhist false (se_vsids (sta_search (so_state s))).
Proof.
  induction 1 as [|F s c s' HB IH Hv E|F s _ IH|F s _ IH]; auto.
  - apply vh_new.
  - destruct (PSI_built _ _ _ HB) as [(es & H) _ _ _ _ _ _]. eapply add_vh; eauto.
Qed.
Lemma reach_vh select dbg F s : anysel select -> reach select dbg F s -> vhist false (se_vsids (sta_search (so_state s))).
Proof.
  intros Hs. induction 1 as [F s HB|F s r cx st _ IH E|F s _ IH|F s c s' HR IH Hc Hw E]; auto.
  - eapply built_vh; eauto.
  - eapply schedule_vh; eauto.
  - destruct (MI_reach _ _ _ _ Hs HR) as [(K & L & steps & es & _ & H) _]. eapply add_vh; eauto.
Qed.
Lemma visited_vh select dbg F cx se : anysel select -> visited select dbg F cx se -> vhist false (se_vsids se).
Proof.
  intro Hs. induction 1; cbn [with_prop se_vsids search_cb cb_vsids] in *; auto.
  - eapply reach_vh; eauto.
  - eapply search_step_vh; eauto.
  - eapply restart_vh; eauto.
  - match goal with E : reduce _ _ _ = _ |- _ => apply reduce_vh in E; congruence end.
  - match goal with E : backtrack_to_level _ _ _ _ = _ |- _ => apply backtrack_vh in E; auto end.
  - match goal with E : analyze_conflict _ _ _ _ _ _ = _ |- _ => apply analyze_vh in E; auto end.
  - eapply vh_pop; eauto.
  - eapply vh_pop; eauto.
  - match goal with V : visited _ _ _ _ _ |- _ => destruct (visited_SI _ _ _ _ _ Hs V) as (K & L & st & es & HK & HI) end.
    eapply add_vh; eauto.
Qed.
