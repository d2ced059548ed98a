(** C66: the memory of deleted clauses is reclaimed. *)
From Coq Require Import NArith List Bool Arith Lia Permutation ZifyN ZifyNat ZifyBool.
From Verif Require Import Model_Base Model_Lit Model_PartialAssignment Model_Header Model_Arena Model_Prop
  Model_Heap Model_Vsids Model_Analysis Model_Luby Model_Solver Spec Drivers_Arena Proof_Base Proof_PA Proof_Lit Proof_Arena Proof_ArenaHist
  Proof_Long Proof_Trail Proof_Backtrack Proof_Inv Proof_Propagate Proof_Gc Proof_Analysis Proof_Learn Proof_DB Proof_Reduce Proof_Solver Proof_Search Proof_Solve Proof_Add
  Drivers_Solver Drivers_Search Proof_Main Proof_Select Proof_Visited Examples_Solver Proof_Size Proof_Garbage Prop_Prop Prop_Analysis Prop_Search.
Import ListNotations.

(** [live] lists the long clauses of [p] that are not deleted, each once. *)
Definition lists_long (p : prop) (live : list (cref * list N)) : Prop :=
  NoDup (map fst live) /\ forall r c, In (r, c) live <-> long_lits (p_long p) r = Ret c /\ c <> [].
(** The words they need: two header words, a length word and the literals. *)
Definition words_needed (live : list (cref * list N)) : nat := list_sum (map (fun rc => 3 + length (snd rc)) live).

Lemma lists_entries n es p : PI n es p -> exists live, lists_long p live /\ words_needed live = used_words 2 (map le_words es).
Proof.
  intro HP. pose proof (pi_lr _ _ _ _ HP) as HL. exists (map (fun e => (le_ref e, le_lits e)) (filter le_live es)). split; [split|].
  - rewrite map_map. cbn [fst]. pose proof (LR_nodup _ _ HL) as ND. clear -ND. induction es as [|e es IH]; [constructor|]. cbn [map] in ND. inversion ND; subst. cbn [filter].
    destruct (le_live e); auto. cbn [map]. constructor; auto. intro G. apply H1. apply in_map_iff in G as (x & Ex & Hx). apply filter_In in Hx as [Hx _]. rewrite <- Ex. apply in_map; auto.
  - intros r c. rewrite in_map_iff. split.
    + intros ([[r' h] c'] & E & Hi). apply filter_In in Hi as [Hi Hv]. unfold le_ref, le_lits in E. cbn [fst snd] in E. inversion E; subst.
      split; [apply (LR_lits _ _ HL _ _ _ Hi)|]. intros ->. discriminate Hv.
    + intros [E Hc]. destruct (LR_lits_rev _ _ HL _ _ E) as [h Hi]. exists (r, h, c). split; auto. apply filter_In. split; auto. destruct c; [contradiction|reflexivity].
  - unfold words_needed, used_words, list_sum. rewrite map_map. cbn [snd]. clear. induction es as [|[[r h] c] es IH]; auto. cbn [map filter].
    change (e_live (le_words (r, h, c))) with (le_live (r, h, c)). destruct (le_live (r, h, c)); auto. cbn [map fold_right]. rewrite IH.
    change (e_lits (le_words (r, h, c))) with c. change (le_lits (r, h, c)) with c. lia.
Qed.
Lemma half_bound n es p : PI n es p -> half (p_long p) ->
  exists live, lists_long p live /\ length (a_buffer (p_long p)) <= 2 * words_needed live.
Proof.
  intros HP Hh. destruct (lists_entries _ _ _ HP) as (live & H1 & H2). exists live. split; auto. rewrite H2.
  pose proof (AR_used 2 _ _ (pi_lr _ _ _ _ HP)) as U. unfold utilization in U. unfold half, awords in Hh. destruct (Nat.leb_spec (a_garbage (p_long p)) (length (a_buffer (p_long p)))); [|discriminate].
  injection U as U'. lia.
Qed.

(** ** C66 *)
(** After every search step at least half of the clause memory is in use,
    whatever was deleted before it. *)
Theorem step_reclaims select dbg F cx se r cx' se' :
  select_ok (fun _ _ => True) select -> visited select dbg F cx se -> p_unsat (se_prop se) = false ->
  search_step dbg cx se = Ret (r, cx', se') ->
  exists live, lists_long (se_prop se') live /\ length (a_buffer (p_long (se_prop se'))) <= 2 * words_needed live.
Proof.
  intros Hs HV Hu E. assert (HV' : visited select dbg F cx' se') by (eapply vis_step; eauto).
  destruct (visited_SI _ _ _ _ _ Hs HV') as (K & L & steps & es & _ & H). eapply half_bound; [apply (s_pi _ _ _ _ _ _ _ _ H)|]. eapply step_half; eauto.
Qed.

Lemma add_unsat dbg cx p h ls ad cx' p' : add_clause_verbatim dbg cx p h ls = Ret (ad, cx', p') ->
  p_unsat p = true -> p_unsat p' = true.
Proof.
  unfold add_clause_verbatim. intro H. destruct ls as [|a [|b [|c r]]]; repeat (match type of H with
    | bind ?x _ = _ => destruct x as [?| |] eqn:?; cbn [bind] in H; try discriminate
    | (let '(_, _) := ?x in _) = _ => destruct x
    | (if ?x then _ else _) = _ => destruct x
    | match ?x with Some _ => _ | None => _ end = _ => destruct x; try discriminate
    end); inversion H; subst; auto.
  match goal with A : assign _ _ _ = _ |- _ => unfold assign in A; destruct (assign_raw _ _ _ _) as [[v t]| |]; cbn [bind] in A; inversion A; subst; auto end.
Qed.
Lemma solver_add_garbage dbg s c s' : solver_add_clause dbg s c = Ret s' ->
  let p := se_prop (sta_search (so_state s)) in let p' := se_prop (sta_search (so_state s')) in
  a_garbage (p_long p') = a_garbage (p_long p) /\ awords (p_long p) <= awords (p_long p') /\ (p_unsat p = true -> p_unsat p' = true).
Proof.
  unfold solver_add_clause, search_resize. intro E. destruct (st_vars _ <? _).
  - destruct (vsids_resize _ _); cbn [bind] in E; try discriminate. destruct (add_clause_verbatim _ _ _ _ _) as [[[ad cx2] p1]| |] eqn:E1; cbn [bind] in E; try discriminate.
    inversion E; subst. pose proof (add_unsat _ _ _ _ _ _ _ _ E1). apply add_garbage in E1. cbn [so_state sta_search se_prop] in *. tauto.
  - cbn [bind] in E. destruct (add_clause_verbatim _ _ _ _ _) as [[[ad cx2] p1]| |] eqn:E1; cbn [bind] in E; try discriminate.
    inversion E; subst. pose proof (add_unsat _ _ _ _ _ _ _ _ E1). apply add_garbage in E1. cbn [so_state sta_search se_prop] in *. tauto.
Qed.
Lemma built_garbage dbg F s : built dbg F s -> a_garbage (p_long (se_prop (sta_search (so_state s)))) = 0.
Proof.
  induction 1 as [|F s c s' HB IH Hc E|F s HB IH|F s HB IH]; auto. rewrite (proj1 (solver_add_garbage _ _ _ _ E)). exact IH.
Qed.
Lemma reduce_unsat select cx se cx' se' : reduce select cx se = Ret (cx', se') -> p_unsat (se_prop se') = p_unsat (se_prop se).
Proof.
  unfold reduce. intro E. repeat (match type of E with
    | bind ?x _ = _ => destruct x as [?| |]; cbn [bind] in E; try discriminate
    | (let '(_, _) := ?x in _) = _ => destruct x
    | (if ?x then _ else _) = _ => destruct x
    end); inversion E; reflexivity.
Qed.
Lemma reach_half select dbg F s : select_ok (fun _ _ => True) select -> reach select dbg F s ->
  p_unsat (se_prop (sta_search (so_state s))) = false -> half (p_long (se_prop (sta_search (so_state s)))).
Proof.
  intros Hs H. induction H as [F s H|F s r cx st H IH E|F s H IH|F s c s' H IH Hc Hw E]; auto.
  - intros _. unfold half. rewrite (built_garbage _ _ _ H). lia.
  - cbn [so_state]. unfold schedule_search_step in E. destruct (should_restart _ _) as [dr sc1].
    destruct (if dr then _ else _) as [[cx1 se1]| |] eqn:E1; cbn [bind] in E; try discriminate.
    destruct (should_reduce cx1 sc1) as [dd sc2]. destruct (if dd then _ else _) as [[cx2 se2]| |] eqn:E2; cbn [bind] in E; try discriminate.
    destruct (search_step dbg cx2 se2) as [[[r3 cx3] se3]| |] eqn:E3; cbn [bind] in E; try discriminate. inversion E; subst. cbn [sta_search].
    intro Hu. destruct (p_unsat (se_prop se2)) eqn:U2; [|eapply step_half; eauto].
    unfold search_step in E3. rewrite U2 in E3. inversion E3; subst. congruence.
  - destruct (solver_add_garbage _ _ _ _ E) as (A & B & C). intro Hu. unfold half in *. rewrite A.
    destruct (p_unsat (se_prop (sta_search (so_state s)))); [rewrite C in Hu; [discriminate|auto]|]. specialize (IH eq_refl). lia.
Qed.
(** So it is between any two steps of [solve], until it has found the clauses to
    be unsatisfiable. *)
Theorem memory_bounded select dbg F s :
  select_ok (fun _ _ => True) select -> reach select dbg F s ->
  let p := se_prop (sta_search (so_state s)) in p_unsat p = false ->
  exists live, lists_long p live /\ length (a_buffer (p_long p)) <= 2 * words_needed live.
Proof.
  intros Hs H p Hu. pose proof (vis_solver _ _ _ _ H) as HV.
  destruct (visited_SI _ _ _ _ _ Hs HV) as (K & L & steps & es & _ & HI). eapply half_bound; [apply (s_pi _ _ _ _ _ _ _ _ HI)|]. eapply reach_half; eauto.
Qed.

(** Six pigeons, five holes.  After 50 steps and a restart, eight reductions leave 168 of
    263 words as garbage.  The next step frees them. *)
Definition hole5 (i h : N) : N := (2 * (5 * i + h) + 1)%N.
Definition php6 : list (list N) :=
  map (fun i => map (hole5 i) [0; 1; 2; 3; 4]%N) [0; 1; 2; 3; 4; 5]%N ++
  flat_map (fun h => flat_map (fun i => flat_map (fun j =>
    if (i <? j)%N then [[(hole5 i h - 1)%N; (hole5 j h - 1)%N]] else []) [0; 1; 2; 3; 4; 5]%N) [0; 1; 2; 3; 4; 5]%N) [0; 1; 2; 3; 4]%N.
Fixpoint reduces (k : nat) (x : ctx * search) : res (ctx * search) :=
  match k with O => Ret x | S k' => let* x' := reduce select_sort (fst x) (snd x) in reduces k' x' end.
Definition start6 : solver := after true 50 (added true php6).
Definition cleared (s : solver) : res (ctx * search) :=
  let* x := restart true (so_ctx s) (sta_search (so_state s)) in reduces 8 x.
Definition state6 : ctx * search := from_res (so_ctx start6, sta_search (so_state start6)) (cleared start6).
Lemma visited_reduces dbg F k : forall x y, visited select_sort dbg F (fst x) (snd x) -> reduces k x = Ret y -> visited select_sort dbg F (fst y) (snd y).
Proof.
  induction k as [|k IH]; intros x y HV E; cbn [reduces] in E; [inversion E; subst; auto|].
  destruct (reduce select_sort (fst x) (snd x)) as [[c s]| |] eqn:E1; cbn [bind] in E; try discriminate. eapply IH; [|exact E]. cbn [fst snd]. eapply vis_reduce; eauto.
Qed.
Lemma visited_cleared F s : reach select_sort true F s ->
  let x := from_res (so_ctx s, sta_search (so_state s)) (cleared s) in visited select_sort true F (fst x) (snd x).
Proof.
  intro R. cbv zeta. destruct (cleared s) as [y| |] eqn:E; [|apply vis_solver; exact R..]. unfold cleared in E. cbn [from_res].
  destruct (restart true (so_ctx s) (sta_search (so_state s))) as [[c se]| |] eqn:E1; cbn [bind] in E; try discriminate.
  eapply visited_reduces; [|exact E]. cbn [fst snd]. eapply vis_restart; [apply vis_solver; exact R|exact E1].
Qed.
Lemma start6_reach : reach select_sort true php6 start6.
Proof. apply reach_after. constructor. apply built_added; vm_compute; reflexivity. Qed.
Lemma state6_visited : visited select_sort true php6 (fst state6) (snd state6).
Proof. exact (visited_cleared php6 start6 start6_reach). Qed.
Definition memory (se : search) : nat * nat := (length (a_buffer (p_long (se_prop se))), a_garbage (p_long (se_prop se))).
Example step_reclaims_example :
  visited select_sort true php6 (fst state6) (snd state6) /\ p_unsat (se_prop (snd state6)) = false /\ memory (snd state6) = (263, 168) /\
  exists cx' se', search_step true (fst state6) (snd state6) = Ret (None, cx', se') /\ memory se' = (95, 0).
Proof.
  split; [apply state6_visited|]. split; [vm_compute; reflexivity|]. split; [vm_compute; reflexivity|].
  assert (X : match search_step true (fst state6) (snd state6) with Ret (None, _, se') => memory se' = (95, 0) | _ => False end) by (vm_compute; reflexivity).
  destruct (search_step true (fst state6) (snd state6)) as [[[[b|] cx'] se']| |]; try contradiction. eauto.
Qed.
Example memory_bounded_example : reach select_sort true php6 start6 /\ p_unsat (se_prop (sta_search (so_state start6))) = false /\
  memory (sta_search (so_state start6)) = (263, 0).
Proof.
  split; [apply start6_reach|split; vm_compute; reflexivity].
Qed.

Print Assumptions step_reclaims.
Print Assumptions memory_bounded.
