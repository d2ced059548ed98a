(** The reduction schedule: how the reduction counter and the planned next
    reduction change in a search step. *)
From Coq Require Import NArith List Bool Arith Lia ZifyN ZifyNat ZifyBool.
From Verif Require Import Model_Base Model_Lit Model_PartialAssignment Model_Header Model_Arena Model_Prop
  Model_Heap Model_Vsids Model_Analysis Model_Luby Model_Solver Spec Drivers_Solver.
Import ListNotations.

Ltac step H := match type of H with
  | bind ?x _ = Ret _ => let E := fresh "E" in let a := fresh "a" in destruct x as [a| |] eqn:E; [|discriminate H..]; cbn [bind] in H
  end.

Definition reds (cx : ctx) : nat := st_reductions (cx_stats cx).
Definition confs (cx : ctx) : nat := st_conflicts (cx_stats cx).

Lemma verbatim_reds dbg cx p h c a cx' p' : add_clause_verbatim dbg cx p h c = Ret (a, cx', p') -> reds cx' = reds cx.
Proof.
  intro H. unfold add_clause_verbatim in H. destruct c as [|x [|y [|z r]]].
  - inversion H; auto.
  - step H. destruct a0; [inversion H; auto|]. step H. inversion H; auto.
  - step H. inversion H; auto.
  - step H. destruct a0 as [[c|] l]; [|discriminate]. step H. inversion H. unfold reds; cbn [cx_stats cx_with]. destruct (lh_redundant h); auto.
Qed.

Lemma learn_reds dbg cx an p cx' an' p' : learn_and_assign dbg cx an p = Ret (cx', an', p') -> reds cx' = reds cx.
Proof.
  intro H. unfold learn_and_assign in H. step H. step H. destruct a0 as [h an1]. step H. destruct a0 as [[ad cx2] p1].
  apply verbatim_reds in E1. destruct ad; cbn in H; try (inversion H; subst; auto; fail); step H; step H; inversion H; subst; auto.
Qed.

Lemma analyze_reds dbg cx an p c cb cx' an' p' cb' : analyze_conflict dbg cx an p c cb = Ret (cx', an', p', cb') -> reds cx' = reds cx.
Proof.
  intro H. unfold analyze_conflict in H. destruct (negb _); [|discriminate]. step H. destruct a as [[p1 an1] cb1]. step H. destruct a as [lv an2].
  step H. destruct a as [p2 cb3]. step H. destruct a as [[cx1 an3] p3]. apply learn_reds in E2. inversion H; subst; auto.
Qed.

Lemma propagate_reds dbg cx p cx' p' r : propagate dbg cx p = Ret (cx', p', r) -> reds cx' = reds cx.
Proof.
  intro H. unfold propagate in H. step H. step H. destruct a0 as [p1 [c|]]; inversion H; auto.
Qed.

Lemma search_step_reds dbg cx se r cx' se' : search_step dbg cx se = Ret (r, cx', se') -> reds cx' = reds cx.
Proof.
  intro H. unfold search_step in H. destruct (p_unsat _); [inversion H; auto|]. step H. step H. destruct a0 as [[cx1 p1] [c|]]; apply propagate_reds in E0.
  - destruct (Nat.eqb _ _); [inversion H; subst; auto|]. step H. destruct a0 as [[[cx3 an] p2] cb]. apply analyze_reds in E1. inversion H; subst. rewrite E1. auto.
  - step H. destruct a0 as [[v|] vs]; [|inversion H; subst; auto]. step H. step H. inversion H; subst; auto.
Qed.

Lemma delete_reds xs : forall cx a cx' a', foldM delete_candidate xs (cx, a) = Ret (cx', a') -> reds cx' = reds cx.
Proof.
  induction xs as [|x xs IH]; intros cx a cx' a' H; cbn [foldM] in H; [inversion H; auto|]. step H. destruct a0 as [cx1 a1]. apply IH in H. rewrite H. clear IH H.
  unfold delete_candidate in E. destruct (_ <? _); [|discriminate]. step E. step E. inversion E; subst. cbn [cx_with cx_proof] in E0.
  destruct (cx_proof cx); [step E0|]; inversion E0; subst; reflexivity.
Qed.

Lemma reduce_reds select cx se cx' se' : reduce select cx se = Ret (cx', se') -> reds cx' = S (reds cx).
Proof.
  intro H. unfold reduce in H. step H. step H. destruct a0 as [a2 cands]. step H. destruct a0 as [cx2 a3]. step H. inversion H; subst.
  assert (G : reds cx' = reds (bump_reductions cx)).
  { destruct cands as [|c0 cs]; [inversion E1; auto|]. destruct (select _ _) as [[lo mid] hi]. eapply delete_reds; eauto. }
  rewrite G. unfold reds, bump_reductions, cx_with; cbn [cx_stats st_reductions]. lia.
Qed.

Lemma restart_reds dbg cx se cx' se' : restart dbg cx se = Ret (cx', se') -> reds cx' = reds cx /\ confs cx' = confs cx.
Proof.
  intro H. unfold restart in H. destruct (_ <? _); [step H; destruct a|]; inversion H; subst; auto.
Qed.

Definition next_red (s : solver) : N := sc_next_reduce (sta_schedule (so_state s)).

Lemma sched_reduce select dbg s r cx st : schedule_search_step select dbg (so_ctx s) (so_state s) = Ret (r, cx, st) ->
  if (next_red s <=? N.of_nat (confs (so_ctx s)))%N
  then reds cx = S (reds (so_ctx s)) /\ sc_reductions (sta_schedule st) = (sc_reductions (sta_schedule (so_state s)) + 1)%N /\
       sc_next_reduce (sta_schedule st) = (next_red s + reduce_interval (sc_reductions (sta_schedule (so_state s)) + 1))%N
  else reds cx = reds (so_ctx s) /\ sc_reductions (sta_schedule st) = sc_reductions (sta_schedule (so_state s)) /\
       sc_next_reduce (sta_schedule st) = next_red s.
Proof.
  intro H. unfold schedule_search_step in H. destruct (should_restart (so_ctx s) (sta_schedule (so_state s))) as [b sc1] eqn:ER.
  assert (A : sc_next_reduce sc1 = next_red s /\ sc_reductions sc1 = sc_reductions (sta_schedule (so_state s))).
  { unfold should_restart in ER. destruct (_ <=? _)%N; [destruct (luby_wide_advance _)|]; inversion ER; auto. }
  destruct A as [A1 A2]. step H. destruct a as [cx1 se1].
  assert (B : reds cx1 = reds (so_ctx s) /\ confs cx1 = confs (so_ctx s)).
  { destruct b; [eapply restart_reds; eauto|inversion E; subst; auto]. }
  destruct B as [B1 B2]. unfold should_reduce in H. fold (confs cx1) in H. rewrite B2, A1, A2 in H.
  destruct (next_red s <=? N.of_nat (confs (so_ctx s)))%N.
  - step H. destruct a as [cx2 se2]. step E0. destruct a as [cx3 se3]. step E0. inversion E0; subst cx3 se3. apply reduce_reds in E1.
    step H. destruct a0 as [[r3 cx3] se3]. apply search_step_reds in E3. inversion H; subst. cbn [sta_schedule sc_reductions sc_next_reduce].
    split; [lia|]. auto.
  - step H. destruct a as [cx2 se2]. inversion E0; subst cx2 se2.
    step H. destruct a as [[r3 cx3] se3]. apply search_step_reds in E1. inversion H; subst. cbn [sta_schedule sc_reductions sc_next_reduce].
    split; [lia|]. auto.
Qed.

Fixpoint red_sum (k : nat) : N := match k with O => 0%N | S j => (red_sum j + reduce_interval (N.of_nat k))%N end.

Definition RSI (s : solver) : Prop :=
  sc_reductions (sta_schedule (so_state s)) = N.of_nat (reds (so_ctx s)) /\ next_red s = red_sum (reds (so_ctx s)).

Lemma add_sched dbg s c s' : solver_add_clause dbg s c = Ret s' ->
  sta_schedule (so_state s') = sta_schedule (so_state s) /\ reds (so_ctx s') = reds (so_ctx s).
Proof.
  intro E. unfold solver_add_clause in E. step E. destruct a as [cx1 se1].
  step E. destruct a as [[ad cx2] p2]. inversion E; subst. cbn [so_ctx so_state sta_schedule]. split; auto. apply verbatim_reds in E1. rewrite E1.
  destruct (_ <? _); [step E0|]; inversion E0; subst; auto.
Qed.
Lemma RSI_built dbg F s : built dbg F s -> sta_schedule (so_state s) = schedule_empty /\ reds (so_ctx s) = 0.
Proof.
  induction 1 as [|F s c s' H [IH1 IH2] V E|F s H IH|F s H IH]; auto.
  destruct (add_sched _ _ _ _ E) as [-> ->]. auto.
Qed.

Lemma RSI_reach select dbg F s : reach select dbg F s -> RSI s.
Proof.
  induction 1 as [F s H|F s r cx st H [IH1 IH2] E|F s H IH|F s c s' H [IH1 IH2] Hc Hw E]; auto.
  - destruct (RSI_built _ _ _ H) as [A B]. unfold RSI, next_red. rewrite A, B. auto.
  - apply sched_reduce in E. unfold RSI, next_red; cbn [so_ctx so_state]. destruct (_ <=? _)%N; destruct E as (-> & -> & ->); auto.
    rewrite IH1, IH2. split; [lia|]. cbn [red_sum]. f_equal. f_equal. lia.
  - unfold RSI, next_red in *. destruct (add_sched _ _ _ _ E) as [-> ->]. auto.
Qed.
