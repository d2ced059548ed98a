(** The solve loop: results and termination. *)
From Coq Require Import NArith List Bool Arith Lia Permutation Sorted ZifyN ZifyNat ZifyBool.
From Verif Require Import Model_Base Model_Lit Model_PartialAssignment Model_Header Model_Arena Model_Prop
  Model_Heap Model_Vsids Model_Analysis Model_Luby Model_Solver Spec Drivers_Arena Proof_Base Proof_PA Proof_Lit Proof_Header Proof_Arena
  Proof_ArenaHist Proof_Long Proof_Trail Proof_Heap Proof_Backtrack Proof_Inv Proof_Propagate Proof_PropOps Proof_Gc Proof_Glue
  Proof_Analysis Proof_Minimize Proof_Learn Proof_DB Proof_Reduce Proof_Solver Proof_Search Proof_Luby.
Import ListNotations.

Notation so_se s := (sta_search (so_state s)).
Notation so_sc s := (sta_schedule (so_state s)).
Definition SOI (K n : nat) (F L : list (list N)) (steps : list pstep) (es : list lent) (s : solver) : Prop :=
  SI K n F L steps es (so_ctx s) (so_se s).

Lemma solve_more select dbg f1 : forall f2 s x, f1 <= f2 -> solve select dbg f1 s = x -> x <> OutOfFuel -> solve select dbg f2 s = x.
Proof.
  induction f1 as [|f1 IH]; intros f2 s x L E N; [cbn in E; congruence|]. destruct f2 as [|f2]; [lia|]. cbn [solve] in *.
  destruct (schedule_search_step select dbg (so_ctx s) (so_state s)) as [[[r cx'] st']|p|]; cbn [bind] in *; auto.
  destruct r as [b|]; auto. apply IH; auto. lia.
Qed.
(** A large term of the sequence is never far away. *)
Lemma luby_window k i : exists j, i <= j <= i + (2 * 2 ^ k - 2) /\ (2 ^ N.of_nat k <= lu_v (wstate j))%N.
Proof.
  assert (B : forall h i, k <= h -> i <= 2 * 2 ^ h - 2 -> exists j, i <= j <= i + (2 * 2 ^ k - 2) /\ j <= 2 * 2 ^ h - 2 /\ (2 ^ N.of_nat k <= lu_v (wstate j))%N).
  { clear i. induction h as [|h IH]; intros i Hk Hi.
    - replace k with 0 in * by lia. exists 0. cbn in *. lia.
    - destruct (Nat.eq_dec k (S h)) as [->|Nk].
      { exists (2 * 2 ^ S h - 2). rewrite (proj1 (block_all (S h))). cbn [lu_v]. lia. }
      rewrite (Nat.pow_succ_r' 2 h) in *. pose proof (pow_nat_pos h). pose proof (pow_nat_pos k).
      destruct (Nat.le_gt_cases i (2 * 2 ^ h - 2)) as [L|L].
      { destruct (IH i ltac:(lia) L) as (j & J1 & J2 & J3). exists j. lia. }
      destruct (Nat.eq_dec i (2 * (2 * 2 ^ h) - 2)) as [->|N].
      { exists (2 * (2 * 2 ^ h) - 2). split; [lia|]. split; [lia|]. pose proof (proj1 (block_all (S h))) as Q. rewrite pow_nat_S in Q. rewrite Q. cbn [lu_v]. apply N.pow_le_mono_r; lia. }
      destruct (IH (i - (2 * 2 ^ h - 1)) ltac:(lia) ltac:(lia)) as (j & J1 & J2 & J3). exists (2 * 2 ^ h - 1 + j). split; [lia|]. split; [lia|].
      rewrite (block_shift h (block_all h) j J2). exact J3. }
  destruct (B (k + i) i ltac:(lia)) as (j & J1 & _ & J2); [|eauto].
  pose proof (Nat.pow_gt_lin_r 2 (k + i) ltac:(lia)). lia.
Qed.

(** ** Termination *)
(** The rank of the trail among the sequences of at most [m] decisions and
    implications: a longer trail comes later, and so does one with an implication
    in the place of a decision. *)
Fixpoint rank (m prev : nat) (lv : list nat) : nat :=
  match m, lv with
  | S r, x :: lv => 1 + (if x =? prev then 2 ^ S r - 1 else 0) + rank r x lv
  | _, _ => 0
  end.
Lemma rank_lt m : forall prev lv, rank m prev lv < 2 ^ S m - 1.
Proof.
  induction m as [|m IH]; intros prev lv; [destruct lv; cbn; lia|]. pose proof (Nat.pow_nonzero 2 m ltac:(lia)). destruct lv as [|x lv].
  - cbn [rank]. rewrite !Nat.pow_succ_r'. lia.
  - specialize (IH x lv). cbn [rank]. rewrite !Nat.pow_succ_r' in *. destruct (_ =? _); lia.
Qed.
Lemma rank_app a : forall m prev b, length a <= m -> rank m prev (a ++ b) = rank m prev a + rank (m - length a) (last a prev) b.
Proof.
  induction a as [|x a IH]; intros m prev b L; cbn [app length last].
  - replace (rank m prev []) with 0 by (destruct m; reflexivity). rewrite Nat.sub_0_r. reflexivity.
  - destruct m as [|m]; [cbn in L; lia|]. cbn [rank length] in *. rewrite IH by lia.
    replace (last a x) with (match a with [] => x | _ => last a prev end); [destruct a; cbn [length]; rewrite ?Nat.sub_succ; lia|].
    destruct a as [|y a]; [reflexivity|]. clear. revert y. induction a as [|z a IH]; intro y; [reflexivity|]. cbn [last] in *. apply IH.
Qed.
Lemma stairs_app a : forall prev b, stairs prev (a ++ b) <-> stairs prev a /\ stairs (last a prev) b.
Proof.
  induction a as [|x a IH]; intros prev b; cbn [app stairs last]; [tauto|]. rewrite IH.
  replace (last a x) with (match a with [] => x | _ => last a prev end); [destruct a; tauto|].
  destruct a as [|y a]; [reflexivity|]. clear. revert y. induction a as [|z a IH]; intro y; [reflexivity|]. cbn [last] in *. apply IH.
Qed.
Lemma grow_rank B lv lv' : grow B lv lv' -> rank B 0 lv < rank B 0 lv'.
Proof.
  intros (ext & L & L' & S1 & S2 & R).
  assert (A : rank B 0 lv <= rank B 0 (lv ++ ext)) by (rewrite rank_app; [lia|rewrite app_length in L; lia]).
  destruct R as [(k & ->)|(target & k & -> & Hk)].
  - rewrite app_length in L'. cbn [length] in L'. rewrite rank_app by lia. destruct (B - length (lv ++ ext)) as [|r] eqn:Eb; [lia|]. cbn [rank]. lia.
  - set (a := firstn target (lv ++ ext)) in *. rewrite app_length in L'. cbn [length] in L'.
    rewrite <- (firstn_skipn target (lv ++ ext)) in A at 1. fold a in A. rewrite rank_app in A by lia.
    rewrite rank_app by lia. destruct (B - length a) as [|r] eqn:Eb; [lia|]. cbn [rank].
    destruct (skipn target (lv ++ ext)) as [|y rest] eqn:Es; [cbn [rank] in A; lia|]. cbn [rank] in A.
    pose proof (Hk y (or_introl eq_refl)) as Hy. rewrite <- (firstn_skipn target (lv ++ ext)) in S1. fold a in S1. rewrite Es in S1.
    apply stairs_app in S1 as [_ [S1 _]]. apply stairs_app in S2 as [_ [S2 _]]. pose proof (rank_lt r y rest).
    destruct (Nat.eqb_spec k (last a 0)); [|lia]. destruct (Nat.eqb_spec y (last a 0)); lia.
Qed.

Section Loop.
Variables (select : list (N * cref) -> nat -> list (N * cref) * (N * cref) * list (N * cref))
  (le : N * cref -> N * cref -> Prop) (dbg : bool) (K n : nat) (F : list (list N)).
Hypothesis Hs : select_ok le select.
Hypothesis HK : dbg = true -> K = 0.

Definition solved (b : bool) (s' : solver) (L' : list (list N)) : Prop :=
  if b then p_unsat (se_prop (so_se s')) = false /\
            t_propagated (p_trail (se_prop (so_se s'))) = length (se_ss (so_se s')) /\ all_assigned n (se_ss (so_se s'))
  else p_unsat (se_prop (so_se s')) = true.

Lemma solve_ok fuel : forall L steps es s, SOI K n F L steps es s ->
  solve select dbg fuel s = OutOfFuel \/ solve select dbg fuel s = Panic PFull \/
  exists b s' L' steps' es', solve select dbg fuel s = Ret (b, s') /\ SOI K n F L' steps' es' s' /\
    (exists x, steps' = steps ++ x) /\ (cx_proof (so_ctx s) = None <-> cx_proof (so_ctx s') = None) /\ solved b s' L' /\
    ((p_unsat (se_prop (so_se s)) = true -> L = [] /\ up_conflict F []) -> b = false -> up_conflict (L' ++ F) []).
Proof.
  induction fuel as [|f IH]; intros L steps es s H; [left; reflexivity|]. cbn [solve].
  destruct (schedule_step_ok select le dbg K n F L steps es (so_ctx s) (so_state s) Hs HK H) as [[E _]|(r & cx' & st' & L1 & steps1 & es1 & E & O)];
    rewrite E; [right; left; reflexivity|]. cbn [bind].
  pose proof (sc_res _ _ _ _ _ _ _ _ _ _ _ _ _ O) as R.
  destruct r as [b|].
  - rewrite (report_ok _ _ _ _ _ _ _ _ dbg (sc_si _ _ _ _ _ _ _ _ _ _ _ _ _ O) HK). cbn [bind]. right; right.
    exists b, (mkSolver cx' st'), L1, steps1, es1. split; auto. split; [apply O|]. split; [apply O|]. split; [apply O|]. cbn [so_state so_ctx].
    split; [destruct b; cbn [solved so_state]; tauto|]. intros J ->. destruct R as [_ [(R1 & R2)|(R1 & R2)]]; auto.
    destruct (J R1) as [Z U]. destruct (R2 Z) as [-> ->]. exact U.
  - destruct R as (R0 & R1 & _).
    destruct (IH L1 steps1 es1 (mkSolver cx' st') (sc_si _ _ _ _ _ _ _ _ _ _ _ _ _ O)) as [E2|[E2|(b & s' & L' & steps' & es' & E2 & H2 & [x Hx] & Hp & Hr & HJ)]];
      rewrite E2; [auto|auto|right; right].
    exists b, s', L', steps', es'. split; auto. split; auto. destruct (sc_steps _ _ _ _ _ _ _ _ _ _ _ _ _ O) as [y Hy].
    split; [exists (y ++ x); rewrite Hx, Hy, app_assoc; auto|]. split; [rewrite <- Hp; apply O|]. split; auto.
    intros _. apply HJ. cbn [so_state]. congruence.
Qed.

Definition W : nat := 2 ^ S (K + n) - 2.
Lemma SOI_V s : rank (K + n) 0 (levs (so_se s)) <= W.
Proof. pose proof (rank_lt (K + n) 0 (levs (so_se s))). unfold W. lia. Qed.

Definition halts (fuel : nat) (s : solver) : Prop := solve select dbg fuel s <> OutOfFuel.

Lemma solve_step_halts fuel s r cx' st' : schedule_search_step select dbg (so_ctx s) (so_state s) = Ret (r, cx', st') ->
  (r = None -> halts fuel (mkSolver cx' st')) -> halts (S fuel) s.
Proof.
  intros E H. unfold halts in *. cbn [solve]. rewrite E. cbn [bind]. destruct r as [b|]; auto.
  destruct (report dbg cx') eqn:Er; cbn [bind]; try discriminate.
  exfalso. unfold report in Er. destruct dbg; [|discriminate]. destruct (_ <=? _); discriminate.
Qed.

Lemma halts_more f1 f2 s : f1 <= f2 -> halts f1 s -> halts f2 s.
Proof. unfold halts. intros L H. rewrite (solve_more select dbg f1 f2 s _ L eq_refl H). exact H. Qed.

(** No restart within the remaining steps. *)
Lemma halts_quiet d : forall L steps es s, SOI K n F L steps es s -> W - rank (K + n) 0 (levs (so_se s)) <= d ->
  (N.of_nat (st_conflicts (cx_stats (so_ctx s)) + d) < sc_next_restart (so_sc s))%N -> halts (S d) s.
Proof.
  induction d as [|d IH]; intros L steps es s H Hd Hc;
  (destruct (schedule_step_ok select le dbg K n F L steps es (so_ctx s) (so_state s) Hs HK H) as [[E _]|(r & cx' & st' & L1 & steps1 & es1 & E & O)];
    [unfold halts; cbn [solve]; rewrite E; discriminate|]).
  all: apply (solve_step_halts _ s r cx' st' E); intros ->.
  all: pose proof (sc_res _ _ _ _ _ _ _ _ _ _ _ _ _ O) as (_ & _ & R); pose proof (sc_rst _ _ _ _ _ _ _ _ _ _ _ _ _ O) as T.
  all: assert (Er : restarts_now (so_ctx s) (so_sc s) = false) by (unfold restarts_now; apply N.leb_gt; lia).
  all: rewrite Er in T; destruct T as (_ & _ & T); specialize (R Er); apply grow_rank in R.
  all: pose proof (SOI_V (mkSolver cx' st')) as G; cbn [so_state] in G.
  - lia.
  - apply (IH L1 steps1 es1); [apply O|cbn [so_state]; lia|]. cbn [so_state so_ctx]. rewrite T.
    pose proof (sc_cf _ _ _ _ _ _ _ _ _ _ _ _ _ O). lia.
Qed.

Lemma wstate_S i : wstate (S i) = snd (luby_wide_advance (wstate i)).
Proof. reflexivity. Qed.
Lemma luby_wide_fst l : fst (luby_wide_advance l) = lu_v l.
Proof. unfold luby_wide_advance. destruct (_ =? _)%N; reflexivity. Qed.

(** Either restarts go on until the Luby term is large enough, or the levels grow. *)
Lemma halts_loop j : (N.of_nat W + 1 < lu_v (wstate j) * 512)%N ->
  forall k i d L steps es s, i + k = j -> SOI K n F L steps es s -> sc_luby (so_sc s) = wstate i ->
    W - rank (K + n) 0 (levs (so_se s)) <= d -> halts (S d + S k * S W) s.
Proof.
  intro HW. induction k as [|k IHk]; induction d as [|d IHd]; intros L steps es s Hi H HL Hd.
  all: (destruct (schedule_step_ok select le dbg K n F L steps es (so_ctx s) (so_state s) Hs HK H) as [[E _]|(r & cx' & st' & L1 & steps1 & es1 & E & O)];
    [unfold halts; cbn [solve Nat.add]; rewrite E; discriminate|]).
  all: rewrite Nat.add_succ_l; apply (solve_step_halts _ s r cx' st' E); intros ->.
  all: pose proof (sc_res _ _ _ _ _ _ _ _ _ _ _ _ _ O) as (_ & _ & R); pose proof (sc_rst _ _ _ _ _ _ _ _ _ _ _ _ _ O) as T.
  all: pose proof (SOI_V (mkSolver cx' st')) as G; cbn [so_state] in G.
  all: destruct (restarts_now (so_ctx s) (so_sc s)) eqn:Er; destruct T as (_ & TL & T).
  all: try (specialize (R eq_refl); apply grow_rank in R).
  all: rewrite HL in TL, T || rewrite HL in TL.
  (* restart with i = j *)
  1,3: rewrite luby_wide_fst in T; replace i with j in T by lia;
    apply (halts_more (S W)); [lia|]; apply (halts_quiet W L1 steps1 es1); [apply O|lia|]; cbn [so_state so_ctx]; rewrite T;
    pose proof (sc_cf _ _ _ _ _ _ _ _ _ _ _ _ _ O); lia.
  - exfalso; lia.
  - apply (IHd L1 steps1 es1); auto; [apply O|cbn [so_state]; lia].
  - apply (halts_more (S W + S k * S W)); [lia|]. apply (IHk (S i) W L1 steps1 es1); [lia|apply O|cbn [so_state]; rewrite TL; apply wstate_S|lia].
  - exfalso; lia.
  - apply (halts_more (S W + S k * S W)); [lia|]. apply (IHk (S i) W L1 steps1 es1); [lia|apply O|cbn [so_state]; rewrite TL; apply wstate_S|lia].
  - apply (IHd L1 steps1 es1); auto; [apply O|cbn [so_state]; lia].
Qed.

Theorem solve_halts L steps es s i e : SOI K n F L steps es s -> sc_luby (so_sc s) = wstate i -> K + n < e + 9 ->
  halts ((2 * 2 ^ e) * 2 ^ S (K + n)) s.
Proof.
  intros H HL He. destruct (luby_window e i) as (j & Hij & Hj). pose proof (Nat.pow_nonzero 2 (K + n) ltac:(lia)) as P. pose proof (Nat.pow_nonzero 2 e ltac:(lia)) as P2.
  assert (SW : S W < 2 ^ S (K + n)) by (unfold W; rewrite Nat.pow_succ_r'; lia).
  apply (halts_more (S W + S (j - i) * S W)).
  { replace (S W + S (j - i) * S W) with ((2 + (j - i)) * S W) by lia. apply Nat.mul_le_mono; lia. }
  apply (fun HW => halts_loop j HW (j - i) i W L steps es s); [|lia|exact H|exact HL|lia].
  assert (N.of_nat (2 ^ S (K + n)) <= 2 ^ N.of_nat e * 512)%N; [|lia].
  rewrite Nat2N.inj_pow. change (N.of_nat 2) with 2%N. change 512%N with (2 ^ 9)%N. rewrite <- N.pow_add_r. apply N.pow_le_mono_r; lia.
Qed.

(** The Luby state stays on the sequence. *)
Lemma solve_luby fuel : forall L steps es s i b s', SOI K n F L steps es s -> sc_luby (so_sc s) = wstate i ->
  solve select dbg fuel s = Ret (b, s') -> exists i', sc_luby (so_sc s') = wstate i'.
Proof.
  induction fuel as [|f IH]; intros L steps es s i b s' H HL E; [discriminate|]. cbn [solve] in E.
  destruct (schedule_step_ok select le dbg K n F L steps es (so_ctx s) (so_state s) Hs HK H) as [[E1 _]|(r & cx' & st' & L1 & steps1 & es1 & E1 & O)];
    rewrite E1 in E; [discriminate|]. cbn [bind] in E.
  pose proof (sc_rst _ _ _ _ _ _ _ _ _ _ _ _ _ O) as T.
  assert (HL' : exists i', sc_luby (sta_schedule st') = wstate i').
  { destruct (restarts_now _ _); destruct T as (_ & T & _); rewrite T, HL; [exists (S i); apply wstate_S|eauto]. }
  destruct r as [b'|].
  - destruct (report dbg cx'); cbn [bind] in E; try discriminate. inversion E; subst. exact HL'.
  - destruct HL' as [i' HL']. eapply (IH L1 steps1 es1 (mkSolver cx' st')); eauto. apply O.
Qed.
End Loop.

