(** C75: learned clauses are new. *)
From Coq Require Import NArith List Bool Arith Lia Permutation Sorted ZifyN ZifyNat ZifyBool.
From Verif Require Import Model_Base Model_Lit Model_PartialAssignment Model_Header Model_Arena Model_Prop
  Model_Heap Model_Vsids Model_Analysis Model_Luby Model_Solver Spec Proof_Base Proof_PA Proof_Lit
  Proof_Long Proof_Trail Proof_PropOps Proof_Backtrack Proof_Inv Proof_Propagate Proof_Gc Proof_Glue Proof_Derive Proof_Analysis Proof_Minimize Proof_Learn
  Proof_DB Proof_Reduce Proof_Solver Proof_Search Proof_Solve Proof_Add
  Drivers_Solver Drivers_Search Proof_Main Proof_Visited Proof_Select Proof_History Examples_Solver Prop_Prop Prop_Analysis.
Import ListNotations.

(** A clause without repeated literals all of whose literals are false has two
    literals that became false on the current level. *)
Lemma falsified_two n es p d : PI n es p -> 0 < decision_level (p_trail p) -> holds_clause p d -> NoDup d -> (forall x, In x d -> is_false p x) ->
  exists x y, x <> y /\ In x d /\ In y d /\ slev (t_steps (p_trail p)) (neg x) = decision_level (p_trail p) /\ slev (t_steps (p_trail p)) (neg y) = decision_level (p_trail p).
Proof.
  intros HP Hl HC ND Hf. pose proof (pi_tr _ _ _ _ HP) as HT. pose proof (pi_vr _ _ _ _ HP) as HV. set (ss := t_steps (p_trail p)) in *.
  apply (holds_stored _ _ _ HP) in HC.
  assert (Q : forall x, In x d -> ~ In (neg x) (slits (firstn (t_propagated (p_trail p)) ss)) -> slev ss (neg x) = decision_level (p_trail p)).
  { intros x Hx Hn. specialize (Hf x Hx). unfold is_false, trail_lits in Hf. fold ss in Hf. apply in_slits in Hf as (j & sj & Ej & El).
    assert (Lq : t_propagated (p_trail p) <= j).
    { destruct (Nat.ltb_spec j (t_propagated (p_trail p))) as [Lq|Lq]; auto. exfalso. apply Hn. rewrite <- El. apply in_map. apply nth_error_In with j.
      rewrite nth_error_firstn. destruct (Nat.ltb_spec j (t_propagated (p_trail p))); [auto|lia]. }
    rewrite <- El. transitivity (s_level sj); [eapply tr_slev; eauto|]. apply (tr_lev_last _ _ HT _ _ Ej Lq). }
  assert (NT : forall t, In t d -> ~ In t (slits ss)).
  { intros t Ht I. apply (VR_cons _ _ _ t HV); auto. apply Hf; auto. }
  destruct HC as [(c0 & h & Hi & Hne)|(x & y & -> & Hx & Hy)].
  - destruct (pi_ll _ _ _ _ HP _ _ _ Hi Hne) as (L3 & _). destruct d as [|a [|b r]]; cbn [length] in L3; try lia.
    exists a, b. assert (a <> b) by (inversion ND; subst; intro; subst; intuition). split; auto. split; [left; auto|]. split; [right; left; auto|].
    split; apply Q; try (left; auto; fail); try (right; left; auto; fail).
    + intro I. destruct (pi_pl _ _ _ _ HP _ _ _ _ _ Hi a (or_introl eq_refl) I) as (t & T1 & T2 & _). eapply NT; eauto.
    + intro I. destruct (pi_pl _ _ _ _ HP _ _ _ _ _ Hi b (or_intror eq_refl) I) as (t & T1 & T2 & _). eapply NT; eauto.
  - destruct (bi_sym _ _ (pi_bi _ _ _ _ HP) x y Hx Hy) as [Hy' Hx'].
    exists x, y. assert (x <> y) by (inversion ND; subst; intro; subst; intuition). split; auto. split; [left; auto|]. split; [right; left; auto|].
    split; apply Q; try (left; auto; fail); try (right; left; auto; fail).
    + intro I. destruct (pi_pb _ _ _ _ HP x y Hx Hy I) as [T _]. eapply NT; [|exact T]. right; left; auto.
    + intro I. destruct (pi_pb _ _ _ _ HP y x Hy' Hx' I) as [T _]. eapply NT; [|exact T]. left; auto.
Qed.

(** The same for a clause that is live as far as the proof is concerned. *)
Lemma live_two n F L es p d : PI n es p -> DBR F L es (p_binary p) (t_steps (p_trail p)) false -> 0 < decision_level (p_trail p) ->
  (forall x, In x d -> vidx x < n) -> In d (L ++ F) -> NoDup d -> (forall x, In x d -> is_false p x) ->
  exists x y, x <> y /\ In x d /\ In y d /\ slev (t_steps (p_trail p)) (neg x) = decision_level (p_trail p) /\ slev (t_steps (p_trail p)) (neg y) = decision_level (p_trail p).
Proof.
  intros HP HD Hl Hv Hi ND Hf. destruct d as [|a [|b [|e d]]].
  - discriminate (db_empty _ _ _ _ _ _ HD Hi).
  - exfalso. destruct (db_fact _ _ _ _ _ _ HD a Hi) as [Q|(s & S1 & S2 & _)]; [discriminate|].
    apply (VR_cons _ _ _ a (pi_vr _ _ _ _ HP)); [|apply Hf; left; auto]. rewrite <- S2. apply in_map. exact S1.
  - apply (falsified_two n es p); auto. apply (holds_stored _ _ _ HP). right. exists a, b. split; auto. split; [apply Hv; left; auto|].
    eapply Permutation_in; [apply Permutation_sym, (db_bin _ _ _ _ _ _ HD)|]. apply in_flat_map. exists [a; b]. split; auto.
    cbn [binof]. rewrite N.eqb_refl. left. auto.
  - assert (X : exists l r, In l (live r es) /\ Permutation l (a :: b :: e :: d)).
    { apply in_app_or in Hi as [Hi|Hi].
      - destruct (meq_in_rev _ _ (a :: b :: e :: d) (db_red _ _ _ _ _ _ HD)) as (l & A & B); [apply filter_In; auto|]. eauto.
      - destruct (meq_in_rev _ _ (a :: b :: e :: d) (db_irr _ _ _ _ _ _ HD)) as (l & A & B); [apply filter_In; auto|]. eauto. }
    destruct X as (l & r & X1 & X2). apply live_in in X1 as (c & h & X3 & X4 & _).
    destruct (falsified_two n es p l HP Hl) as (x & y & A & B & C & D).
    + apply (holds_stored _ _ _ HP). left. eauto.
    + eapply Permutation_NoDup; [apply Permutation_sym; exact X2|auto].
    + intros x Hx. apply Hf. eapply Permutation_in; eauto.
    + exists x, y. repeat split; try tauto; eapply Permutation_in; eauto.
Qed.

(** What one conflict adds. *)
Lemma learned_live dbg F cx se cx1 p1 c cx2 an p2 cb K L st es :
  SI K (cnf_vars F) F L st es cx se ->
  propagate dbg cx (se_prop se) = Ret (cx1, p1, Some c) -> decision_level (p_trail p1) <> 0 ->
  analyze_conflict dbg (bump_conflicts cx1) (se_analysis se) p1 c (search_cb se) = Ret (cx2, an, p2, cb) ->
  exists cl,
    cx_proof cx2 = option_map (fun st => st ++ [PAdd cl]) (cx_proof cx) /\
    (2 <= length cl -> holds_clause p2 cl) /\
    (forall x, In x cl -> exists k, 0 < k /\ true_at p1 (neg x) k) /\ NoDup cl /\
    (forall d, holds_clause p1 d -> NoDup d -> ~ incl d cl) /\
    (p_unsat (se_prop se) = false -> forall d, In d (L ++ F) -> NoDup d -> ~ incl d cl).
Proof.
  intros H0 E Hd EA.
  destruct (SI_propagate dbg _ _ _ _ _ _ _ _ H0) as (cx3 & p3 & es1 & r1 & E1 & H1 & HX & _ & HR).
  rewrite E in E1. inversion E1; subst cx3 p3 r1. destruct HR as [Hc ->]. clear E1.
  pose proof (s_pi _ _ _ _ _ _ _ _ H1) as HP. cbn [se_prop] in HP. pose proof (pi_tr _ _ _ _ HP) as HT.
  destruct (analyze_full _ es1 p1 dbg (bump_conflicts cx) (se_analysis se) c (search_cb se) HP ltac:(lia) (s_an _ _ _ _ _ _ _ _ H0) (s_cb _ _ _ _ _ _ _ _ H0) Hc)
    as (cl & Ecl & [[E1 _]|R]); [rewrite EA in E1; discriminate|].
  destruct R as (cx3 & an3 & p3 & cb3 & es2 & es' & h & a & rest & r & k & target & E3 & Z & v1 & der & u & i & V & B & T).
  rewrite EA in E3. inversion E3; subst cx3 an3 p3 cb3. clear E3.
  pose proof (az_al _ _ _ _ _ _ _ _ _ _ _ _ _ _ _ _ _ _ Z) as Hal. pose proof (az_a _ _ _ _ _ _ _ _ _ _ _ _ _ _ _ _ _ _ Z) as Ha.
  pose proof (az_lt _ _ _ _ _ _ _ _ _ _ _ _ _ _ _ _ _ _ Z) as Hlt.
  assert (HR : forall x, In x rest -> In (neg x) (slits (t_steps (p_trail p1))) /\ 1 <= slev (t_steps (p_trail p1)) (neg x) < decision_level (p_trail p1)).
  { intros x Hx. pose proof (proj1 (back_in _ _ _ _ HT (az_tg _ _ _ _ _ _ _ _ _ _ _ _ _ _ _ _ _ _ Z) (neg x)) (az_f _ _ _ _ _ _ _ _ _ _ _ _ _ _ _ _ _ _ Z x Hx)) as [B1 B2].
    split; auto. split; [|lia]. destruct T as [T _ Hi _ _ _ _]. apply Hi in Hx. rewrite (tc_der _ _ _ _ _ _ _ _ _ _ _ _ T) in Hx.
    apply filter_In in Hx as [Hx _]. apply (tc_v _ _ _ _ _ _ _ _ _ _ _ _ T) in Hx. eapply met_level; eauto. }
  assert (HF : forall x, In x (a :: rest) -> is_false p1 x).
  { intros x [<-|Q]; [exact Ha|]. apply HR; auto. }
  assert (U : forall d x y, incl d (a :: rest) -> x <> y -> In x d -> In y d -> slev (t_steps (p_trail p1)) (neg x) = decision_level (p_trail p1) ->
    slev (t_steps (p_trail p1)) (neg y) = decision_level (p_trail p1) -> False).
  { intros d x y Hi Hxy Hx Hy Lx Ly. assert (U : forall z, In z d -> slev (t_steps (p_trail p1)) (neg z) = decision_level (p_trail p1) -> z = a).
    { intros z Hz Lz. destruct (Hi z Hz) as [<-|Q]; auto. destruct (HR z Q) as [_ R2]. lia. }
    apply Hxy. rewrite (U x Hx Lx), (U y Hy Ly). reflexivity. }
  exists (a :: rest). split.
  { rewrite (az_cx _ _ _ _ _ _ _ _ _ _ _ _ _ _ _ _ _ _ Z). cbn [cx_proof cx_log bump_conflicts cx_with]. destruct (cx_proof cx); reflexivity. }
  split.
  { intro HL. apply (holds_stored _ _ _ (az_pi _ _ _ _ _ _ _ _ _ _ _ _ _ _ _ _ _ _ Z)).
    pose proof (az_db _ _ _ _ _ _ _ _ _ _ _ _ _ _ _ _ _ _ Z) as DB. destruct rest as [|b [|b' rest]]; cbn [length] in HL; [lia| |].
    - right. exists a, b. split; auto. split; [apply (falsified_vidx _ es1 p1 a HP Ha)|]. destruct DB as [_ DB]. rewrite DB. unfold badd.
      rewrite N.eqb_refl. apply in_or_app. right. left. auto.
    - left. destruct DB as (_ & c0 & -> & _). exists c0, h. split; [apply in_or_app; right; left; auto|discriminate]. }
  split.
  { intros x [<-|Hx].
    - exists (decision_level (p_trail p1)). split; [lia|]. apply (true_at_slev _ _ _ HP). auto.
    - destruct (HR x Hx) as [R1 R2]. exists (slev (t_steps (p_trail p1)) (neg x)). split; [lia|]. apply (true_at_slev _ _ _ HP). auto. }
  split; [apply Z|]. split.
  - intros d HD ND Hi. destruct (falsified_two _ _ _ _ HP ltac:(lia) HD ND) as (x & y & Hxy & Hx & Hy & Lx & Ly); [auto|]. eapply U; eauto.
  - intros Hu d HD ND Hi. pose proof (s_db _ _ _ _ _ _ _ _ H1) as DB. cbn [se_prop] in DB.
    assert (Hu1 : p_unsat p1 = false) by (destruct HX as (_ & _ & HX & _); congruence).
    rewrite Hu1 in DB. destruct (live_two _ _ _ _ _ d HP DB ltac:(lia)) as (x & y & Hxy & Hx & Hy & Lx & Ly); auto.
    + intros x Hx. apply (falsified_vidx _ es1 p1 x HP). apply HF, Hi. auto.
    + eapply U; eauto.
Qed.

(** The clause learned from a conflict contains no literal assigned at the top
    level, and no stored clause and no input clause (without repeated literals) is
    part of it; it is stored. *)
Theorem learned_new select dbg F cx se cx1 p1 c cx2 an p2 cb :
  select_ok (fun _ _ => True) select -> visited select dbg F cx se -> p_unsat (se_prop se) = false ->
  propagate dbg cx (se_prop se) = Ret (cx1, p1, Some c) -> decision_level (p_trail p1) <> 0 ->
  analyze_conflict dbg (bump_conflicts cx1) (se_analysis se) p1 c (search_cb se) = Ret (cx2, an, p2, cb) ->
  exists cl,
    cx_proof cx2 = option_map (fun st => st ++ [PAdd cl]) (cx_proof cx) /\
    (2 <= length cl -> holds_clause p2 cl) /\
    (forall x, In x cl -> exists k, 0 < k /\ true_at p1 (neg x) k) /\ NoDup cl /\
    (forall d, holds_clause p1 d \/ In d F -> NoDup d -> ~ incl d cl).
Proof.
  intros Hs HV Hu E Hd EA. destruct (visited_SI _ _ _ _ _ Hs HV) as (K & L & st & es & HK & H).
  destruct (learned_live _ _ _ _ _ _ _ _ _ _ _ _ _ _ _ H E Hd EA) as (cl & A1 & A2 & A3 & A4 & A5 & A6).
  exists cl. split; auto. split; auto. split; auto. split; auto. intros d [HD|HD] ND; [auto|]. apply A6; auto. apply in_or_app; auto.
Qed.

(** ** The proof as a whole *)
Definition fresh (steps : list pstep) : Prop := forall pre c post, steps = pre ++ Add c :: post ->
  NoDup c /\ forall d, count_deleted d pre < count_added d pre -> ~ incl d c.

Lemma fresh_add steps c : fresh steps -> NoDup c -> (forall d, count_deleted d steps < count_added d steps -> ~ incl d c) -> fresh (steps ++ [Add c]).
Proof.
  intros HF ND HN pre c0 post E. destruct (exists_last (l := Add c0 :: post)) as (l & x & El); [discriminate|]. rewrite El, app_assoc in E.
  apply app_inj_tail in E as [-> <-]. destruct l as [|y l]; cbn in El.
  - inversion El; subst. rewrite app_nil_r in *. auto.
  - inversion El; subst. eapply HF; eauto.
Qed.
Lemma fresh_del lls : forall steps, fresh steps -> fresh (steps ++ map Del lls).
Proof.
  induction lls as [|c0 lls IH] using rev_ind; intros steps HF; [rewrite app_nil_r; auto|]. rewrite map_app, app_assoc. specialize (IH _ HF).
  intros pre c post E. destruct (exists_last (l := Add c :: post)) as (l & x & El); [discriminate|]. rewrite El, app_assoc in E. cbn [map] in E.
  apply app_inj_tail in E as [E <-]. destruct l as [|y l]; cbn in El; inversion El; subst. eapply IH; eauto.
Qed.

Lemma add_proof dbg s c s' : solver_add_clause dbg s c = Ret s' -> cx_proof (so_ctx s') = cx_proof (so_ctx s).
Proof.
  unfold solver_add_clause. set (X := if Nat.ltb _ _ then _ else _). intro E.
  assert (A : forall cx1 se1, X = Ret (cx1, se1) -> cx_proof cx1 = cx_proof (so_ctx s)).
  { unfold X. intros cx1 se1 E1. destruct (Nat.ltb _ _); [|inversion E1; subst; auto]. destruct (search_resize _ _); try discriminate. cbn [bind] in E1.
    inversion E1; subst. reflexivity. }
  destruct X as [[cx1 se1]| |]; try discriminate. cbn [bind] in E. specialize (A _ _ eq_refl).
  assert (B : forall o cx2 p2, add_clause_verbatim dbg cx1 (se_prop se1) lh_new_input c = Ret (o, cx2, p2) -> cx_proof cx2 = cx_proof cx1).
  { intros o cx2 p2. unfold add_clause_verbatim. destruct c as [|a [|b [|d r]]].
    - intro H; inversion H; subst; auto.
    - destruct (pa_is_false _ _) as [f| |]; try discriminate. cbn [bind]. destruct f; [intro H; inversion H; subst; auto|].
      destruct (assign _ _ _); try discriminate. cbn [bind]. intro H; inversion H; subst; auto.
    - destruct (bin_add _ _ _); try discriminate. cbn [bind]. intro H; inversion H; subst. reflexivity.
    - destruct (long_add_clause _ _ _) as [[oc lg]| |]; try discriminate. cbn [bind]. destruct oc as [rf|]; try discriminate.
      repeat match goal with |- bind ?x _ = _ -> _ => destruct x; try discriminate; cbn [bind] end.
      all: try (destruct (ws_enabled _)); repeat match goal with |- bind ?x _ = _ -> _ => destruct x; try discriminate; cbn [bind] end; intro H; inversion H; subst; destruct (lh_redundant _); reflexivity. }
  destruct (add_clause_verbatim _ _ _ _ _) as [[[o cx2] p2]| |]; try discriminate. cbn [bind] in E. inversion E; subst. cbn [so_ctx].
  rewrite (B _ _ _ eq_refl). exact A.
Qed.

Lemma searched_fresh select dbg F evs cx se : select_ok (fun _ _ => True) select -> searched select dbg F evs cx se ->
  forall log, cx_proof cx = Some log -> fresh (map to_pstep log).
Proof.
  intros Hs H. induction H as [F s H|F evs cx se H IH|F evs cx se p H IH E|F evs cx se cx' se' H IH E|F evs cx se cx' se' H IH E
    |F evs cx se cx1 p1 c cx2 an p2 cb H IH Hu E1 Hd E|F evs cx se cx1 p1 v vs l p2 H IH E1 E2 E3 E4|F evs cx se cx1 p1 c H IH Hu E1 Hd|F evs cx se cx1 p1 vs H IH E1 E2|F evs s c s' H IH Hc Hw E]; auto.
  - intros log El. assert (X : forall l, cx_proof (so_ctx s) = Some l -> l = []).
    { clear log El. induction H as [|F s c s' _ IH Hv E|F s _ IH|F s _ IH]; intros l El; cbn in El; try congruence. rewrite (add_proof _ _ _ _ E) in El. auto. }
    rewrite (X _ El). intros pre c post Q. destruct pre; discriminate.
  - intros log El. discriminate.
  - intros log El. destruct (visited_SI _ _ _ _ _ Hs (searched_visited _ _ _ _ _ _ H)) as (K & L & st & es & HK & HI).
    destruct (SI_reduce select _ _ _ _ _ _ _ _ _ Hs HI) as (cx1 & se1 & L1 & es1 & lls & E1 & H1 & Ecx & _). rewrite E in E1. inversion E1; subst cx' se'.
    rewrite Ecx in El. cbn [del_ctx cx_proof bump_reductions cx_with] in El. destruct (cx_proof cx) as [l0|]; inversion El; subst. rewrite map_app, map_map.
    cbn [to_pstep]. apply fresh_del. auto.
  - intros log El. destruct (visited_SI _ _ _ _ _ Hs (searched_visited _ _ _ _ _ _ H)) as (K & L & st & es & HK & HI).
    destruct (SI_restart dbg _ _ _ _ _ _ _ _ HI) as (cx1 & se1 & E1 & H1 & Ecx & _). rewrite E in E1. inversion E1; subst cx' se'. rewrite Ecx in El. auto.
  - intros log El. destruct (visited_SI _ _ _ _ _ Hs (searched_visited _ _ _ _ _ _ H)) as (K & L & st & es & HK & HI).
    destruct (learned_live _ _ _ _ _ _ _ _ _ _ _ _ _ _ _ HI E1 Hd E) as (cl & A1 & A2 & A3 & A4 & A5 & A6).
    rewrite A1 in El. destruct (cx_proof cx) as [l0|] eqn:Ep; inversion El; subst. rewrite map_app. cbn [map to_pstep].
    apply fresh_add; auto. intros d Hlt Hi. pose proof (s_log _ _ _ _ _ _ _ _ HI l0 Ep) as G. change (map to_pstep l0 = st) in G. rewrite G in *.
    pose proof (drat_counts _ _ _ (s_run _ _ _ _ _ _ _ _ HI) d) as C.
    assert (X : exists d', In d' L /\ Permutation d d').
    { destruct (filter (same_clause d) L) as [|d' r] eqn:Ef; [cbn in C; lia|]. exists d'.
      assert (In d' (filter (same_clause d) L)) as Q by (rewrite Ef; left; auto). apply filter_In in Q as [Q1 Q2]. split; auto. apply same_clause_perm; auto. }
    destruct X as (d' & X1 & X2). apply (A6 Hu d'); [apply in_or_app; auto| |intros x Hx; apply Hi; eapply Permutation_in; [apply Permutation_sym; eauto|auto]].
    apply (Permutation_NoDup X2). assert (Y : exists d2, In (Add d2) st /\ Permutation d d2).
    { unfold count_added in Hlt. destruct (filter _ st) as [|s0 r] eqn:Ef in Hlt; [cbn in Hlt; lia|].
      match type of Ef with filter ?f _ = _ => assert (Q : In s0 (filter f st)) by (rewrite Ef; left; auto) end. apply filter_In in Q as [Q1 Q2].
      destruct s0 as [d2|d2]; [|discriminate]. exists d2. split; auto. apply same_clause_perm; auto. }
    destruct Y as (d2 & Y1 & Y2). apply in_split in Y1 as (pre & post & Y1). destruct (IH l0 eq_refl pre d2 post) as [Y3 _]; [congruence|].
    apply (Permutation_NoDup (Permutation_sym Y2)). auto.
  - intros log El. destruct (visited_SI _ _ _ _ _ Hs (searched_visited _ _ _ _ _ _ H)) as (K & L & st & es & HK & HI).
    destruct (SI_propagate dbg _ _ _ _ _ _ _ _ HI) as (cx3 & p3 & es3 & r3 & E5 & H3 & _ & _ & HR).
    rewrite E1 in E5. inversion E5; subst cx3 p3 r3. destruct HR as [HC Ecx]. rewrite Ecx in El. auto.
  - intros log El. destruct (visited_SI _ _ _ _ _ Hs (searched_visited _ _ _ _ _ _ H)) as (K & L & st & es & HK & HI).
    destruct (SI_propagate dbg _ _ _ _ _ _ _ _ HI) as (cx3 & p3 & es3 & r3 & E5 & H3 & _ & _ & HR).
    rewrite E1 in E5. inversion E5; subst cx3 p3 r3. destruct HR as [HC Ecx]. rewrite Ecx in El. auto.
  - intros log El. destruct (visited_SI _ _ _ _ _ Hs (searched_visited _ _ _ _ _ _ H)) as (K & L & st & es & HK & HI).
    destruct (SI_propagate dbg _ _ _ _ _ _ _ _ HI) as (cx3 & p3 & es3 & r3 & E5 & H3 & _ & _ & HR).
    rewrite E1 in E5. inversion E5; subst cx3 p3 r3. destruct HR as [HC Ecx]. rewrite Ecx in El. auto.
  - intros log El. rewrite (add_proof _ _ _ _ E) in El. auto.
Qed.

(** Every clause the proof adds has no repeated literal, and no clause the proof
    has added before and not deleted again is part of it: in particular no clause
    is learned twice, in any order of its literals, without having been deleted. *)
Theorem proof_additions_new select dbg F s steps pre c post :
  select_ok (fun _ _ => True) select -> reach select dbg F s -> proof_log s = Some steps ->
  steps = pre ++ Add c :: post ->
  NoDup c /\ forall d, count_deleted d pre < count_added d pre -> ~ incl d c.
Proof.
  intros Hs HR E Es. destruct (searched_reach _ _ _ _ HR) as [evs HS]. unfold proof_log in E. destruct (cx_proof (so_ctx s)) as [l|] eqn:Ep; inversion E; subst.
  eapply (searched_fresh _ _ _ _ _ _ Hs HS l Ep). eauto.
Qed.

(** In the example run on the pigeon-hole clauses the third conflict happens at a
    positive level; the learned clause [2; 19] is not among the stored ones. *)
Example php4_conflict_visited : visited select_sort true php4 (so_ctx (at_step php4 7)) (sta_search (so_state (at_step php4 7))).
Proof. apply vis_solver, reach_after, reach_built, built_added; vm_compute; reflexivity. Qed.
Example learned_new_example :
  let se := sta_search (so_state (at_step php4 7)) in
  match propagate true (so_ctx (at_step php4 7)) (se_prop se) with
  | Ret (cx1, p1, Some c) =>
      decision_level (p_trail p1) = 2%nat /\ p_unsat (se_prop se) = false /\ bin_containing (p_binary p1) 2 = Ret [8; 14; 20] /\
      match analyze_conflict true (bump_conflicts cx1) (se_analysis se) p1 c (search_cb se) with
      | Ret (cx2, _, p2, _) => cx_proof cx2 = Some [PAdd [14; 7; 1]; PAdd [18; 1]; PAdd [2; 19]] /\
          bin_containing (p_binary p2) 2 = Ret [8; 14; 20; 19]
      | _ => False
      end
  | _ => False
  end%N.
Proof. vm_compute. repeat split. Qed.
(** The same run as a whole: of the clauses [14; 7; 1], [18; 1] and [2; 19] added
    before, none is part of the fourth one. *)
Example proof_additions_new_example :
  proof_log (snd (outcome true php4)) = Some ([Add [14; 7; 1]; Add [18; 1]; Add [2; 19]] ++ Add [1] :: [Add [10]])%N /\
  forall d, In d [[14; 7; 1]; [18; 1]; [2; 19]]%N -> count_deleted d [Add [14; 7; 1]; Add [18; 1]; Add [2; 19]]%N < count_added d [Add [14; 7; 1]; Add [18; 1]; Add [2; 19]]%N.
Proof. split; [vm_compute; reflexivity|]. intros d [<-|[<-|[<-|[]]]]; vm_compute; auto. Qed.
Print Assumptions learned_new. Print Assumptions proof_additions_new.
