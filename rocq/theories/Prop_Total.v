(** C102: the time of a whole run. *)
From Coq Require Import NArith List Bool Arith Lia Permutation ZifyN ZifyNat ZifyBool.
From Verif Require Import Model_Base Model_Lit Model_PartialAssignment Model_Header Model_Arena Model_Prop
  Model_Heap Model_Vsids Model_Analysis Model_Luby Model_Solver Model_Cost Model_Work Model_RunWork Model_RunAnalysis Model_RunQueue Model_ReduceCost Model_GcCost
  Spec Proof_Base Proof_Trail Proof_Inv Proof_Solver Proof_Search Proof_Solve Proof_Add
  Drivers_Solver Drivers_Search Proof_Main Proof_Select Proof_Visited Proof_Cost Prop_Width Proof_RunWork Proof_RunAnalysis Proof_RunQueue Proof_GcCost Proof_ReduceCost
  Examples_Solver Prop_Step Prop_Bound Prop_GcCost Prop_Memory Prop_RunWork Prop_RunAnalysis Prop_RunQueue Prop_ReduceCost.
Import ListNotations.

(** ** Specification *)
(** [total_reach select dbg w t r F s]: after adding the clauses of [F] and [t] search
    steps, none of them after an answer, the solver is in the state [s].  [r] is the
    answer of the last step, [None] if there is none yet.  [w] is all work counted so
    far: that of unit propagation (C94), conflict analysis (C96), the priority queue
    (C97), reductions (C98) and garbage collection (C90), and one unit for every step. *)
Inductive total_reach (select : selection) (dbg : bool) : nat -> nat -> option bool -> list (list N) -> solver -> Prop :=
| to_built F s : built dbg F s -> total_reach select dbg 0 0 None F s
| to_step w t F s r cx st k1 k2 k3 k4 k5 : total_reach select dbg w t None F s ->
    schedule_search_step_n select dbg (so_ctx s) (so_state s) = Ret ((r, cx, st), k1) ->
    schedule_search_step_a select dbg (so_ctx s) (so_state s) = Ret ((r, cx, st), k2) ->
    schedule_search_step_q select dbg (so_ctx s) (so_state s) = Ret ((r, cx, st), k3) ->
    schedule_search_step_r select dbg (so_ctx s) (so_state s) = Ret ((r, cx, st), k4) ->
    schedule_search_step_gc select dbg (so_ctx s) (so_state s) = Ret ((r, cx, st), k5) ->
    total_reach select dbg (w + 1 + k1 + k2 + k3 + k4 + k5) (S t) r F (mkSolver cx st).

(** ** Every run is counted *)
Lemma total_next select dbg w t F s r cx st : total_reach select dbg w t None F s ->
  schedule_search_step select dbg (so_ctx s) (so_state s) = Ret (r, cx, st) ->
  exists k, total_reach select dbg (w + k) (S t) r F (mkSolver cx st).
Proof.
  intros H E.
  pose proof E as E1. rewrite <- er_schedule_n in E1. apply Prop_GcCost.erased in E1 as [k1 E1].
  pose proof E as E2. rewrite <- er_schedule_a in E2. apply Prop_GcCost.erased in E2 as [k2 E2].
  pose proof E as E3. rewrite <- er_schedule_q in E3. apply Prop_GcCost.erased in E3 as [k3 E3].
  pose proof E as E4. rewrite <- er_schedule_r in E4. apply Prop_GcCost.erased in E4 as [k4 E4].
  pose proof E as E5. rewrite <- Proof_GcCost.er_schedule in E5. apply Prop_GcCost.erased in E5 as [k5 E5].
  exists (1 + k1 + k2 + k3 + k4 + k5). rewrite !Nat.add_assoc. eapply to_step; eauto.
Qed.

(** Whatever [solve] answers for a formula, its run has such a count. *)
Theorem counted_total select dbg F s fuel b s' : built dbg F s -> solve select dbg fuel s = Ret (b, s') ->
  exists w t, total_reach select dbg w t (Some b) F s' /\ 1 <= t <= fuel.
Proof.
  intro HB. assert (G : forall fuel s w t, total_reach select dbg w t None F s -> solve select dbg fuel s = Ret (b, s') ->
    exists w' t', total_reach select dbg w' t' (Some b) F s' /\ S t <= t' <= t + fuel).
  { clear. induction fuel as [|f IH]; intros s w t H E; cbn [solve] in E; [discriminate|].
    destruct (schedule_search_step _ _ _ _) as [[[r cx] st]| |] eqn:Es; try discriminate. cbn [bind] in E.
    destruct (total_next _ _ _ _ _ _ _ _ _ H Es) as [k H1]. destruct r as [b0|].
    - destruct (report dbg cx); try discriminate. cbn [bind] in E. injection E as <- <-. exists (w + k), (S t). split; [exact H1|lia].
    - destruct (IH _ _ _ H1 E) as (w' & t' & H2 & B). exists w', t'. split; [exact H2|lia]. }
  intro E. destruct (G _ _ _ _ (to_built _ _ _ _ HB) E) as (w & t & H & B). exists w, t. split; [exact H|lia].
Qed.

Lemma total_run select dbg w t r F s : total_reach select dbg w t r F s -> reach select dbg F s.
Proof.
  induction 1 as [F s H|w t F s r cx st k1 k2 k3 k4 k5 H IH E1 E2 E3 E4 E5]; [now apply reach_built|].
  eapply reach_step; [exact IH|]. rewrite <- er_schedule_n. apply Prop_GcCost.erased. eauto.
Qed.
Lemma total_split select dbg w t r F s : total_reach select dbg w t r F s ->
  exists w1 w2 w3 w4 z, w = t + w1 + w2 + w3 + w4 /\ z <= t /\ both_reach select dbg w1 F s /\ queue_reach select dbg w2 F s /\
    reduce_reach select dbg w3 F s /\ gc_reach select dbg w4 z F s.
Proof.
  induction 1 as [F s H|w t F s r cx st k1 k2 k3 k4 k5 H (w1 & w2 & w3 & w4 & z & -> & Hz & I1 & I2 & I3 & I4) E1 E2 E3 E4 E5].
  - exists 0, 0, 0, 0, 0. split; [auto|]. split; [auto|]. split; [now apply br_built|]. split; [now apply qr_built|]. split; [now apply rr_built|now apply gr_built].
  - exists (w1 + k1 + k2), (w2 + k3), (w3 + k4), (w4 + k5), (z + if memory_words s =? 0 then 1 else 0). split; [lia|].
    split; [destruct (_ =? _); lia|]. split; [eapply br_step; eauto|]. split; [eapply qr_step; eauto|]. split; [eapply rr_step; eauto|eapply gr_step; eauto].
Qed.

(** ** The number of steps *)
Lemma level_le select dbg F s n : anysel select -> reach select dbg F s -> dbg = true \/ distinct_units F -> vars_below F n -> level (so_prop s) <= n.
Proof.
  intros Hs HR D Hn. pose proof (vis_solver _ _ _ _ HR) as HV. destruct (trail_length _ _ _ _ _ Hs HV) as (_ & T & _). specialize (T D).
  assert (V : cnf_vars F <= n) by (destruct (cnf_vars_wit F) as [->|(c & x & Hc & Hx & ->)]; [lia|specialize (Hn c x Hc Hx); lia]).
  destruct (visited_SI _ _ _ _ _ Hs HV) as (K & L & st & es & HK & H). pose proof (dl_le _ _ (pi_tr _ _ _ _ (s_pi _ _ _ _ _ _ _ _ H))) as B.
  unfold level, so_prop. lia.
Qed.

(** A step ends with a conflict, a decision or an answer, and there are at most [n]
    decisions between two conflicts or restarts. *)
Theorem steps_bounded select dbg w t r F s n :
  select_ok (fun _ _ => True) select -> total_reach select dbg w t r F s -> dbg = true \/ distinct_units F -> vars_below F n ->
  t <= 1 + conflicts s + decisions s /\ decisions s <= n * (1 + conflicts s + restarts s).
Proof.
  intros Hs H D Hn.
  assert (G : t <= (if r then 1 else 0) + conflicts s + decisions s /\ decisions s <= level (so_prop s) + n * (conflicts s + restarts s)).
  2: { pose proof (level_le _ _ _ _ _ Hs (total_run _ _ _ _ _ _ _ H) D Hn). split; [destruct r; lia|]. rewrite <- Nat.add_assoc, Nat.mul_add_distr_l. lia. }
  induction H as [F s H|w t F s r cx st k1 k2 k3 k4 k5 H IH E1 E2 E3 E4 E5].
  - destruct (built_counters _ _ _ H) as [C _]. unfold counters in C. injection C as C1 C2 C3 C4 C5. unfold decisions, conflicts. rewrite C2, C3. split; lia.
  - destruct (IH D Hn) as [I1 I2]. pose proof (total_run _ _ _ _ _ _ _ H) as R. pose proof (level_le _ _ _ _ _ Hs R D Hn) as Lv.
    assert (E : schedule_search_step select dbg (so_ctx s) (so_state s) = Ret (r, cx, st)) by (rewrite <- er_schedule_n; apply Prop_GcCost.erased; eauto).
    pose proof (step_effect_exact _ _ _ _ _ _ _ Hs R E) as X. cbv zeta in X. destruct X as [Rs X]. set (s' := mkSolver cx st) in *.
    set (d := if restarts s <? restarts s' then 0 else level (so_prop s)) in X.
    assert (M : restarts s <= restarts s').
    { destruct (MI_reach _ _ _ _ Hs R) as [(K & L & steps & es & HK & HI) _].
      destruct (schedule_step_ok select _ dbg K _ F L steps es (so_ctx s) (so_state s) Hs (fun e => proj1 HK (or_introl e)) HI) as [[Ex _]|(r' & cx' & st' & L1 & steps1 & es1 & Ex & O)];
        rewrite E in Ex; [discriminate|]. injection Ex as <- <- <-. pose proof (sc_rst _ _ _ _ _ _ _ _ _ _ _ _ _ O) as T.
      unfold s', restarts. cbn [so_ctx]. destruct (restarts_now _ _); destruct T as [-> _]; lia. }
    assert (Hd : level (so_prop s) + n * restarts s <= d + n * restarts s').
    { unfold d. destruct (Nat.ltb_spec (restarts s) (restarts s')) as [Q|Q].
      - replace (restarts s') with (restarts s + 1) by lia. rewrite Nat.mul_add_distr_l. lia.
      - replace (restarts s') with (restarts s) by lia. lia. }
    assert (Ld : d <= n) by (unfold d; destruct (_ <? _); lia).
    rewrite Nat.mul_add_distr_l in I2 |- *. clearbody d. destruct (p_unsat (so_prop s)).
    + destruct X as (-> & _ & Lw & -> & ->). split; lia.
    + destruct X as (dd & dc & -> & -> & ext & _ & [(-> & _ & Lw & -> & ->)|[(-> & _ & Lw & -> & ->)|[(-> & _ & _ & Lw & -> & ->)|(-> & _ & -> & ->)]]]); rewrite Nat.mul_add_distr_l; split; lia.
Qed.

(** ** C102 *)
Lemma long_words_le F : long_words F <= 2 * literals F.
Proof.
  unfold long_words, literals. induction F as [|c F IH]; cbn [map list_sum fold_right] in *; [auto|]. unfold list_sum in *. destruct (Nat.leb_spec 3 (length c)); lia.
Qed.
Lemma unit_clauses_le F : unit_clauses F <= literals F.
Proof.
  unfold unit_clauses, literals. induction F as [|c F IH]; cbn [map list_sum fold_right filter] in *; [auto|]. unfold list_sum in *. destruct (Nat.eqb_spec (length c) 1); cbn [length]; lia.
Qed.

(** The work of a run is at most cubic in the size of the formula and the number of
    conflicts, and linear in the number of reductions. *)
Theorem total_work select dbg w t r F s n :
  select_ok (fun _ _ => True) select -> total_reach select dbg w t r F s -> dbg = true \/ distinct_units F -> vars_below F n ->
  let size := 1 + n + literals F in let c := 1 + conflicts s in
  w <= size * c * (50 * (size + c) + 14 * reductions s).
Proof.
  intros Hs H D Hn size c. pose proof (steps_bounded _ _ _ _ _ _ _ _ Hs H D Hn) as [T1 T2].
  pose proof (restarts_bounded _ _ _ _ Hs (total_run _ _ _ _ _ _ _ H)) as Rs.
  destruct (total_split _ _ _ _ _ _ _ H) as (w1 & w2 & w3 & w4 & z & -> & Hz & H1 & H2 & H3 & H4).
  pose proof (run_quadratic _ _ _ _ _ _ Hs H1 D Hn) as B1. pose proof (queue_conflicts _ _ _ _ _ _ Hs H2 D Hn) as B2.
  pose proof (reduction_work _ _ _ _ _ Hs H3) as B3. pose proof (collect_amortized_partial _ _ _ _ _ _ Hs H4) as B4. cbv zeta in B3, B4.
  fold (conflicts s) in B4. fold (reductions s) in B4.
  assert (V : cnf_vars F <= n) by (destruct (cnf_vars_wit F) as [->|(x & y & Hx & Hy & ->)]; [lia|specialize (Hn x y Hx Hy); lia]).
  pose proof (long_words_le F) as LW. pose proof (unit_clauses_le F) as UC. pose proof (Nat.log2_le_lin n ltac:(lia)) as LG.
  set (m := cnf_vars F + unit_clauses F) in *. set (q := size * c). set (l := literals F) in *. set (k := conflicts s) in *. set (p := reductions s) in *.
  assert (Hm : m + 1 <= size) by (unfold m, size; lia).
  assert (P1 : c <= q) by (unfold q, size; lia). assert (P2 : size <= q) by (unfold q, c; lia).
  assert (A0 : t <= 2 * q).
  { assert (n * (1 + k + restarts s) <= n * (2 * c)) by (apply Nat.mul_le_mono_l; unfold c; lia). unfold q, size. lia. }
  assert (A1 : w1 <= 29 * q + 29 * (q * c)).
  { eapply Nat.le_trans; [exact B1|]. fold c. replace (29 * q + 29 * (q * c)) with (29 * c * (size + size * c)) by (unfold q; ring).
    apply Nat.mul_le_mono_l. assert ((n + 1) * c <= size * c) by (apply Nat.mul_le_mono_r; unfold size; lia). unfold size at 1. lia. }
  assert (A2 : w2 <= 15 * (q * size)).
  { eapply Nat.le_trans; [exact B2|]. replace (15 * (q * size)) with (5 * c * (size * (3 * size))) by (unfold q; ring).
    apply Nat.mul_le_mono; [unfold c; lia|]. apply Nat.mul_le_mono; unfold size; lia. }
  assert (LC : long_words F + k * (m + 3) <= 3 * q).
  { assert (k * (m + 3) <= k * (3 * size)) by (apply Nat.mul_le_mono_l; unfold size in *; lia). unfold q, c. lia. }
  assert (A3 : w3 <= 11 * (q * p)).
  { eapply Nat.le_trans; [exact B3|]. replace (11 * (q * p)) with (p * (11 * q)) by ring. apply Nat.mul_le_mono_l. lia. }
  assert (A4 : w4 <= 18 * q + 3 * (q * p) + 6 * (q * size)).
  { eapply Nat.le_trans; [exact B4|]. assert (X1 : (p + z) * (3 * m + 1) <= (p + 2 * q) * (3 * size)) by (apply Nat.mul_le_mono; lia).
    assert (X2 : p * size <= q * p) by (rewrite (Nat.mul_comm q p); apply Nat.mul_le_mono_l; exact P2).
    replace ((p + 2 * q) * (3 * size)) with (3 * (p * size) + 6 * (q * size)) in X1 by ring. lia. }
  replace (q * (50 * (size + c) + 14 * p)) with (50 * (q * size) + 50 * (q * c) + 14 * (q * p)) by ring.
  assert (q * 1 <= q * size) by (apply Nat.mul_le_mono_l; unfold size; lia). assert (q * 1 <= q * c) by (apply Nat.mul_le_mono_l; unfold c; lia). lia.
Qed.
(** For runs of at most [2 ^ 28] reductions, by the schedule of reductions: *)
Theorem total_cubic select dbg w t r F s n :
  select_ok (fun _ _ => True) select -> total_reach select dbg w t r F s -> dbg = true \/ distinct_units F -> vars_below F n ->
  (N.of_nat (reductions s) <= 2 ^ 28)%N ->
  let size := 1 + n + literals F in let c := 1 + conflicts s in
  w <= 64 * (size * c * (size + c)).
Proof.
  intros Hs H D Hn Hr size c. eapply Nat.le_trans; [eapply total_work; eauto|]. cbv zeta. fold size c.
  assert (P : reductions s <= c).
  { unfold c. destruct (reductions s) as [|k] eqn:E; [lia|]. destruct (reductions_bounded _ _ _ _ k Hs (total_run _ _ _ _ _ _ _ H) E ltac:(lia)) as [_ B]. lia. }
  replace (64 * (size * c * (size + c))) with (size * c * (64 * (size + c))) by ring. apply Nat.mul_le_mono_l. lia.
Qed.

(** Every step has at most one conflict and at most one reduction. *)
Lemma step_counts select dbg w t r F s : anysel select -> total_reach select dbg w t r F s -> conflicts s <= t /\ reductions s <= t.
Proof.
  intro Hs. induction 1 as [F s H|w t F s r cx st k1 k2 k3 k4 k5 H IH E1 E2 E3 E4 E5].
  - destruct (built_counters _ _ _ H) as [C _]. unfold counters in C. injection C as C1 C2 C3 C4 C5. unfold reductions, conflicts. rewrite C3, C5. auto.
  - pose proof (total_run _ _ _ _ _ _ _ H) as R.
    assert (E : schedule_search_step select dbg (so_ctx s) (so_state s) = Ret (r, cx, st)) by (rewrite <- er_schedule_n; apply Prop_GcCost.erased; eauto).
    pose proof (step_effect_exact _ _ _ _ _ _ _ Hs R E) as X. cbv zeta in X. destruct X as [_ X].
    assert (Q : conflicts (mkSolver cx st) <= S (conflicts s)).
    { destruct (p_unsat (so_prop s)); [destruct X as (_ & _ & _ & _ & ->); auto|].
      destruct X as (dd & dc & _ & -> & ext & _ & [(_ & _ & _ & _ & ->)|[(_ & _ & _ & _ & ->)|[(_ & _ & _ & _ & _ & ->)|(_ & _ & _ & ->)]]]); lia. }
    destruct (Prop_ReduceCost.step_work _ _ _ _ _ _ _ _ Hs R E4) as (_ & _ & A). unfold reductions in *. cbn [so_ctx]. lia.
Qed.
(** In terms of the formula alone: with C92, [solve] answers a formula with [n]
    variables within the following time, unless the clause memory is full. *)
Theorem worst_case select dbg F s n e :
  select_ok (fun _ _ => True) select -> built dbg F s -> dbg = true \/ distinct_units F -> vars_below F n -> n <= e + 8 ->
  let steps := 2 ^ (e + 1) * 2 ^ (n + 1) in let size := 1 + n + literals F in
  (exists b s' w t, solve select dbg steps s = Ret (b, s') /\ total_reach select dbg w t (Some b) F s' /\
     t <= steps /\ w <= 228 * (size * steps * (size + steps))) \/
  (solve select dbg steps s = Panic PFull /\ exists s1, reach select dbg F s1 /\ arena_full s1).
Proof.
  intros Hs HB D Hn He steps size.
  assert (Z : size_at_most dbg F n) by (exists n; split; [exact Hn|]; split; [auto|tauto]).
  destruct (solve_step_bound select dbg F s n e steps Hs (reach_built _ _ _ _ HB) Z He (Nat.le_refl _)) as [(b & s' & E)|P]; [left|right; exact P].
  destruct (counted_total _ _ _ _ _ _ _ HB E) as (w & t & H & T). exists b, s', w, t. split; [exact E|]. split; [exact H|]. split; [lia|].
  pose proof (total_work _ _ _ _ _ _ _ _ Hs H D Hn) as W. cbv zeta in W. fold size in W. destruct (step_counts _ _ _ _ _ _ _ Hs H) as [C R].
  clearbody steps. eapply Nat.le_trans; [exact W|].
  replace (228 * (size * steps * (size + steps))) with (size * (2 * steps) * (114 * (size + steps))) by ring.
  apply Nat.mul_le_mono; [apply Nat.mul_le_mono_l|]; lia.
Qed.

(** ** Examples *)
Fixpoint total_steps (n w : nat) (s : solver) : option (nat * option bool * solver) :=
  match n with
  | O => Some (w, None, s)
  | S n' =>
      match schedule_search_step_n select_sort true (so_ctx s) (so_state s), schedule_search_step_a select_sort true (so_ctx s) (so_state s),
            schedule_search_step_q select_sort true (so_ctx s) (so_state s), schedule_search_step_r select_sort true (so_ctx s) (so_state s),
            schedule_search_step_gc select_sort true (so_ctx s) (so_state s) with
      | Ret ((r, cx, st), k1), Ret (_, k2), Ret (_, k3), Ret (_, k4), Ret (_, k5) =>
          let w' := w + 1 + k1 + k2 + k3 + k4 + k5 in
          match r with None => total_steps n' w' (mkSolver cx st) | Some _ => Some (w', r, mkSolver cx st) end
      | _, _, _, _, _ => None
      end
  end.
Lemma total_steps_reach F n : forall w t s w' r s', total_reach select_sort true w t None F s -> total_steps n w s = Some (w', r, s') ->
  exists t', total_reach select_sort true w' t' r F s'.
Proof.
  induction n as [|n IH]; intros w t s w' r s' H E; cbn [total_steps] in E; [inversion E; subst; eauto|].
  destruct (schedule_search_step_n _ _ _ _) as [[[[r1 cx] st] k1]| |] eqn:E1; try discriminate.
  assert (Q : schedule_search_step select_sort true (so_ctx s) (so_state s) = Ret (r1, cx, st)) by (rewrite <- er_schedule_n, E1; reflexivity).
  destruct (schedule_search_step_a _ _ _ _) as [[y2 k2]| |] eqn:E2; try discriminate.
  assert (Q2 := Q). rewrite <- er_schedule_a, E2 in Q2. cbn [erase bind] in Q2. injection Q2 as Q2. subst y2.
  destruct (schedule_search_step_q _ _ _ _) as [[y3 k3]| |] eqn:E3; try discriminate.
  assert (Q3 := Q). rewrite <- er_schedule_q, E3 in Q3. cbn [erase bind] in Q3. injection Q3 as Q3. subst y3.
  destruct (schedule_search_step_r _ _ _ _) as [[y4 k4]| |] eqn:E4; try discriminate.
  assert (Q4 := Q). rewrite <- er_schedule_r, E4 in Q4. cbn [erase bind] in Q4. injection Q4 as Q4. subst y4.
  destruct (schedule_search_step_gc _ _ _ _) as [[y5 k5]| |] eqn:E5; try discriminate.
  assert (Q5 := Q). rewrite <- Proof_GcCost.er_schedule, E5 in Q5. cbn [erase bind] in Q5. injection Q5 as Q5. subst y5.
  pose proof (to_step _ _ _ _ _ _ _ _ _ _ _ _ _ _ H E1 E2 E3 E4 E5) as N1. cbv zeta in E. destruct r1 as [b|]; [inversion E; subst; eauto|eapply IH; eauto].
Qed.
(** Five pigeons: the whole run has 29 conflicts and 35 decisions, and 5963 units of work. *)
Example total_work_example : exists t s, total_reach select_sort true 5963 t (Some false) php5 s /\ conflicts s = 29 /\ decisions s = 35 /\ reductions s = 1 /\
  vars_below php5 20 /\ literals php5 = 100.
Proof.
  set (s0 := added true php5).
  assert (X : match total_steps 100 0 s0 with Some (w, r, s) => w = 5963 /\ r = Some false /\ conflicts s = 29 /\ decisions s = 35 /\ reductions s = 1 | None => False end) by (vm_compute; auto 10).
  destruct (total_steps 100 0 s0) as [[[w r] s]|] eqn:E; [|contradiction]. destruct X as (-> & -> & C & Dn & Rd).
  assert (B : total_reach select_sort true 0 0 None php5 s0) by (apply to_built; apply built_added; vm_compute; reflexivity).
  destruct (total_steps_reach _ _ _ _ _ _ _ _ B E) as [t H]. exists t, s.
  split; [exact H|]. split; [exact C|]. split; [exact Dn|]. split; [exact Rd|]. split; [|vm_compute; reflexivity].
  assert (V : forallb (forallb (fun x => vidx x <? 20)) php5 = true) by (vm_compute; reflexivity).
  intros c x Hc Hx. rewrite forallb_forall in V. specialize (V c Hc). rewrite forallb_forall in V. apply Nat.ltb_lt, V, Hx.
Qed.

(** Five pigeons again, with e = 12 *)
Example worst_case_example : built true php5 (added true php5) /\ vars_below php5 20 /\ 20 <= 12 + 8.
Proof.
  split; [apply built_added; vm_compute; reflexivity|]. split; [|apply Nat.le_refl]. destruct total_work_example as (_ & _ & _ & _ & _ & _ & V & _). exact V.
Qed.

Print Assumptions counted_total.
Print Assumptions steps_bounded.
Print Assumptions total_work.
Print Assumptions total_cubic.
Print Assumptions worst_case.
