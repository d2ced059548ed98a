(** Every visited search state satisfies the invariant. *)
From Coq Require Import NArith List Bool Arith Lia Permutation Sorted ZifyN ZifyNat ZifyBool.
From Verif Require Import Model_Base Model_Lit Model_PartialAssignment Model_Header Model_Arena Model_Prop
  Model_Heap Model_Vsids Model_Analysis Model_Luby Model_Solver Spec Drivers_Arena Proof_Base Proof_PA Proof_Lit Proof_Header Proof_Arena
  Proof_ArenaHist Proof_Long Proof_Trail Proof_Heap Proof_Backtrack Proof_Inv Proof_Propagate Proof_PropOps Proof_Gc Proof_Glue
  Proof_Analysis Proof_Minimize Proof_Learn Proof_DB Proof_Reduce Proof_Size Proof_Solver Proof_Search Proof_Luby Proof_Solve Proof_Add
  Drivers_Solver Proof_Main Drivers_Search.
Import ListNotations.

Lemma SI_back dbg K n F L steps es cx se level : SI K n F L steps es cx se -> level < decision_level (p_trail (se_prop se)) ->
  exists target ti v' cb', nth_error (tl (t_decisions (p_trail (se_prop se)))) level = Some target /\
    backtrack_to_level dbg (se_prop se) level (se_cb se) = Ret (p_set_vt (se_prop se) v' (t_back (p_trail (se_prop se)) level target ti), cb') /\
    SI K n F L steps es cx (mkSearch (p_set_vt (se_prop se) v' (t_back (p_trail (se_prop se)) level target ti)) (se_analysis se) (cb_vsids cb') (cb_phases cb')) /\
    foldM cb_unassign (slits (skipn target (se_ss se))) (se_cb se) = Ret cb' /\
    cb_phases cb' = save_phases (se_phases se) (slits (skipn target (se_ss se))) /\ (cb_ho (se_cb se) -> cb_ho cb').
Proof.
  intros H G. pose proof (s_pi _ _ _ _ _ _ _ _ H) as HP.
  destruct (backtrack_ok n dbg (se_prop se) level (se_cb se)) as (target & ti & v' & cb' & Et & E & HT & HV & HC & Hf & He & _ & _ & Eph & Hho); try apply H; auto.
  exists target, ti, v', cb'. split; auto. split; auto. split; [|auto].
  assert (Hss : t_steps (p_trail (p_set_vt (se_prop se) v' (t_back (p_trail (se_prop se)) level target ti))) = firstn target (se_ss se)) by reflexivity.
  constructor; cbn [se_prop se_analysis se_vsids se_phases]; rewrite ?Hss; auto; try apply H.
  - apply PI_back; auto.
  - eapply DBR_back; eauto. apply H. apply H.
  - destruct cb'; auto.
  - destruct cb'; eapply cover_back; eauto. apply H. apply H.
  - apply dupK_firstn. apply H.
Qed.

Lemma wcnt_flat x c h a b r es : NoDup (map le_ref es) -> In (c, h, a :: b :: r) es ->
  wcnt c (flat_map (wof x) es) = one (x =? a)%N + one (x =? b)%N.
Proof.
  assert (App : forall u v, wcnt c (u ++ v) = wcnt c u + wcnt c v) by (intros; unfold wcnt; rewrite map_app, count_occ_app; auto).
  assert (Oth : forall e, le_ref e <> c -> wcnt c (wof x e) = 0).
  { intros e He. unfold wof. destruct (le_lits e) as [|u [|v w]]; try reflexivity. rewrite App.
    destruct (x =? u)%N, (x =? v)%N; unfold wcnt; cbn [map count_occ w_clause]; repeat (destruct (Nat.eq_dec _ _); [contradiction|]); reflexivity. }
  assert (Non : forall es, ~ In c (map le_ref es) -> wcnt c (flat_map (wof x) es) = 0).
  { induction es0 as [|e es0 IH]; intro N; [reflexivity|]. cbn [flat_map map In] in *. rewrite App, Oth, IH; tauto. }
  induction es as [|e es IH]; intros ND Hi; [contradiction|]. cbn [map] in ND. apply NoDup_cons_iff in ND as [N1 N2]. cbn [flat_map]. rewrite App.
  destruct Hi as [->|Hi].
  - rewrite (Non es) by exact N1. unfold wof, le_lits, le_ref; cbn [fst snd]. rewrite App.
    destruct (x =? a)%N, (x =? b)%N; unfold wcnt, one; cbn [map count_occ w_clause]; repeat (destruct (Nat.eq_dec _ _); [|contradiction]); reflexivity.
  - rewrite (IH N2 Hi). rewrite Oth; [reflexivity|]. intro E. apply N1. rewrite E. apply in_map_iff. exists (c, h, a :: b :: r). auto.
Qed.

Lemma PI_cycle n es dbg p : PI n es p ->
  exists p1 w', enable_watch_lists dbg p false = Ret p1 /\ (forall x, wfun (ws_by_lit (p_watches p1)) x = []) /\
    enable_watch_lists dbg p1 true = Ret (p_set_watches p w') /\ PI n es (p_set_watches p w') /\
    (forall x, wfun (ws_by_lit w') x = flat_map (wof x) es).
Proof.
  intro H. pose proof (pi_ll _ _ _ _ H) as HLL.
  destruct (enable_cycle_ok n es dbg p) as (p1 & w' & E1 & _ & Em & E2 & En & El & Ew); try apply H.
  { intros c h l Hi Hl. destruct (HLL c h l Hi Hl) as (A & _ & B). split; [lia|auto]. }
  exists p1, w'. split; auto. split; auto. split; auto. split; auto.
  constructor; cbn [p_set_watches p_trail p_values p_long p_binary p_watches]; auto; try apply H.
  constructor.
  - intros x w Hx Hw. rewrite Ew in Hw. apply in_flat_map in Hw as ([[c h] l] & Hi & Hw). unfold wof, le_lits, le_ref in Hw. cbn [fst snd] in Hw.
    destruct l as [|a [|b r]]; try contradiction. destruct (HLL _ _ _ Hi) as (_ & _ & B); [discriminate|].
    apply in_app_or in Hw as [Hw|Hw]; (destruct (_ =? _)%N; [destruct Hw as [<-|[]]|contradiction]); cbn [w_blocking w_clause]; (split; [apply B; simpl; auto|exists h; eexists; split; [exact Hi|simpl; auto]]).
  - intros c h a b r Hi x _. rewrite Ew. eapply wcnt_flat; eauto. apply (LR_nodup _ _ (pi_lr _ _ _ _ H)).
Qed.

Definition VI (dbg : bool) (F : list (list N)) (cx : ctx) (se : search) : Prop :=
  exists K L steps es, ((nodup_start dbg F -> K = 0) /\ K <= length (taken_units F)) /\ SI K (cnf_vars F) F L steps es cx se.

Lemma visited_SI select dbg F cx se : anysel select -> visited select dbg F cx se -> VI dbg F cx se.
Proof.
  intros Hs. induction 1 as [F s H|F cx se r cx' se' H IH E|F cx se cx' se' H IH E|F cx se cx' se' H IH E|F cx se p H IH E|F cx se k p cb H IH E
    |F cx se cx' p r H IH E|F cx se cx1 p1 c cx2 an p2 cb H IH E1 Hd E|F cx se cx1 p1 v vs l p2 H IH E1 E2 E3 E4
    |F cx se cx1 p1 c H IH Hu E1 Hd|F cx se cx1 p1 vs H IH E1 E2|F cx se p1 p2 H IH E1 E2|F cx se H IH|F s c s' H IH Hc Hw E].
  - apply (MI_reach _ _ _ _ Hs) in H. destruct H as [H _]. exact H.
  - destruct IH as (K & L & st & es & HK & HI). destruct (search_step_ok dbg _ _ _ _ _ _ _ _ HI) as [[E1 _]|(r1 & cx1 & se1 & L1 & st1 & es1 & E1 & O)];
      rewrite E in E1; [discriminate|]. inversion E1; subst. exists K, L1, st1, es1. split; auto. apply O.
  - destruct IH as (K & L & st & es & HK & HI). destruct (SI_restart dbg _ _ _ _ _ _ _ _ HI) as (cx1 & se1 & E1 & H1 & _).
    rewrite E in E1. inversion E1; subst. exists K, L, st, es. auto.
  - destruct IH as (K & L & st & es & HK & HI). destruct (SI_reduce select _ _ _ _ _ _ _ _ _ Hs HI) as (cx1 & se1 & L1 & es1 & lls & E1 & H1 & _).
    rewrite E in E1. inversion E1; subst. exists K, L1. eexists _, es1. split; [auto|exact H1].
  - destruct IH as (K & L & st & es & HK & HI). destruct (SI_gc dbg _ _ _ _ _ _ _ _ HI) as [[E1 _]|(p1 & es1 & f & E1 & H1 & _)]; rewrite E in E1; [discriminate|].
    inversion E1; subst. exists K, L, st, es1. auto.
  - destruct IH as (K & L & st & es & HK & HI).
    assert (G : k < decision_level (p_trail (se_prop se))).
    { unfold backtrack_to_level in E. destruct (Nat.ltb_spec k (decision_level (p_trail (se_prop se)))) as [G|G]; [auto|discriminate]. }
    destruct (SI_back dbg _ _ _ _ _ _ _ _ _ HI G) as (t & ti & v' & cb' & _ & E1 & H1 & _). unfold search_cb in E. rewrite E in E1. inversion E1; subst.
    exists K, L, st, es. auto.
  - destruct IH as (K & L & st & es & HK & HI). destruct (SI_propagate dbg _ _ _ _ _ _ _ _ HI) as (cx1 & p1 & es1 & r1 & E1 & H1 & _).
    rewrite E in E1. inversion E1; subst. exists K, L, st, es1. auto.
  - destruct IH as (K & L & st & es & HK & HI). destruct (SI_propagate dbg _ _ _ _ _ _ _ _ HI) as (cx3 & p3 & es3 & r3 & E3 & H3 & _ & _ & HR).
    rewrite E1 in E3. inversion E3; subst cx3 p3 r3. destruct HR as [HC Ecx].
    assert (H2 : SI K (cnf_vars F) F L st es3 (bump_conflicts cx1) (mkSearch p1 (se_analysis se) (se_vsids se) (se_phases se))).
    { eapply SI_ctx; [exact H3|..]; try reflexivity. apply H3. }
    destruct (SI_analyze dbg _ _ _ _ _ _ _ _ c H2 HC) as [[E4 _]|R]; [cbn [se_prop]; lia|cbn [se_analysis se_prop se_vsids se_phases] in E4; unfold search_cb in E; rewrite E in E4; discriminate|].
    destruct R as (cx5 & an5 & p5 & cb5 & es5 & cl & level & target & r5 & a & E5 & H5 & _).
    cbn [se_analysis se_prop se_vsids se_phases] in E5; unfold search_cb in E; rewrite E in E5. inversion E5; subst.
    exists K. eexists _, _, es5. split; [auto|exact H5].
  - destruct IH as (K & L & st & es & HK & HI). destruct (SI_propagate dbg _ _ _ _ _ _ _ _ HI) as (cx3 & p3 & es3 & r3 & E5 & H3 & _ & _ & HR).
    rewrite E1 in E5. inversion E5; subst cx3 p3 r3. destruct HR as [HQ Ecx].
    destruct (pop_decision_ok (cnf_vars F) (p_values p1) (slits (t_steps (p_trail p1))) (se_vsids se) (se_phases se)) as (o & vs' & E6 & HC & _ & _ & _ & HO).
    { apply (s_pi _ _ _ _ _ _ _ _ H3). } { apply (s_cb _ _ _ _ _ _ _ _ H3). } { apply (s_cov _ _ _ _ _ _ _ _ H3). }
    rewrite E2 in E6. inversion E6; subst o vs'. destruct HO as (Hv & Nv & Hcov & _).
    assert (H2 : SI K (cnf_vars F) F L st es3 (bump_decisions cx1) (mkSearch p1 (se_analysis se) (se_vsids se) (se_phases se))).
    { eapply SI_ctx; [exact H3|..]; try reflexivity. apply H3. }
    destruct (SI_decide dbg _ _ _ _ _ _ _ _ vs v H2 HQ Hv Nv HC Hcov) as (l' & p4 & El & _ & Evl & E7 & H7 & _).
    cbn [se_prop se_phases] in El, E7. rewrite E3 in El. inversion El; subst l'. rewrite E4 in E7. inversion E7; subst p4.
    exists K, L, st, es3. auto.
  - destruct IH as (K & L & st & es & HK & HI). destruct (SI_propagate dbg _ _ _ _ _ _ _ _ HI) as (cx3 & p3 & es3 & r3 & E3 & H3 & HX & _ & HR).
    rewrite E1 in E3. inversion E3; subst cx3 p3 r3. destruct HR as [HC Ecx]. subst cx1.
    pose proof (s_pi _ _ _ _ _ _ _ _ H3) as HP1. cbn [se_prop] in HP1.
    assert (H2 : SI K (cnf_vars F) F L st es3 (bump_conflicts cx) (mkSearch p1 (se_analysis se) (se_vsids se) (se_phases se))).
    { eapply SI_ctx; [exact H3|..]; try reflexivity. apply H3. }
    assert (UC : up_conflict (L ++ F) []).
    { eapply conf_zero; [apply (s_pi _ _ _ _ _ _ _ _ H2)|apply (s_db _ _ _ _ _ _ _ _ H2)|exact HC|exact Hd]. }
    exists K, L, st, es3. split; auto.
    constructor; cbn [with_prop se_prop se_analysis se_vsids se_phases p_set_unsat p_trail p_binary p_values p_long p_watches]; try apply H2.
    + constructor; cbn [p_set_unsat p_trail p_binary p_values p_long p_watches]; apply HP1.
    + cbn [p_unsat p_set_unsat]. eapply DBR_us; apply H2.
    + intros _. eapply refuted_now; eauto. apply H2.
  - destruct IH as (K & L & st & es & HK & HI). destruct (SI_propagate dbg _ _ _ _ _ _ _ _ HI) as (cx3 & p3 & es3 & r3 & E5 & H3 & _ & _ & HR).
    rewrite E1 in E5. inversion E5; subst cx3 p3 r3.
    destruct (pop_decision_ok (cnf_vars F) (p_values p1) (slits (t_steps (p_trail p1))) (se_vsids se) (se_phases se)) as (o & vs' & E6 & HC & _ & _ & _ & HO).
    { apply (s_pi _ _ _ _ _ _ _ _ H3). } { apply (s_cb _ _ _ _ _ _ _ _ H3). } { apply (s_cov _ _ _ _ _ _ _ _ H3). }
    rewrite E2 in E6. inversion E6; subst o vs'. exists K, L, st, es3. split; auto. destruct HO as [Hcov _].
    constructor; cbn [se_prop se_analysis se_vsids se_phases]; auto; apply H3.
  - destruct IH as (K & L & st & es & HK & HI). destruct (PI_cycle _ es dbg _ (s_pi _ _ _ _ _ _ _ _ HI)) as (q1 & w' & A1 & _ & A2 & A3 & _).
    rewrite E1 in A1. inversion A1; subst q1. rewrite E2 in A2. inversion A2; subst p2. exists K, L, st, es. split; auto.
    constructor; cbn [with_prop se_prop se_analysis se_vsids se_phases]; auto; apply HI.
  - destruct IH as (K & L & st & es & HK & HI). exists K, L, st, es. split; auto. apply SI_proof; auto. discriminate.
  - destruct IH as (K & L & st & es & HK & HI).
    destruct (late_add_core dbg _ _ _ _ _ s c HI Hc Hw) as [[E1 _]|(s1 & es1 & E1 & H1 & _)]; rewrite E1 in E; [discriminate|]. inversion E; subst.
    exists K, L, st, es1. split; [|exact H1]. split; [intro D; apply HK; eapply watchable_units; eauto|]. pose proof (taken_snoc_le F c). lia.
Qed.

Lemma filter_none {A} (f : A -> bool) l : (forall x, In x l -> f x = false) -> filter f l = [].
Proof. induction l as [|x l IH]; intro H; [reflexivity|]. cbn [filter]. rewrite (H x (or_introl eq_refl)). apply IH. intros y Hy. apply H. right; auto. Qed.
Lemma firstn_S_nth {A} (l : list A) i x : nth_error l i = Some x -> firstn (S i) l = firstn i l ++ [x].
Proof. revert i. induction l as [|y l IH]; intros [|i] E; try discriminate; cbn in *; [inversion E; reflexivity|]. rewrite <- (IH i E). reflexivity. Qed.

Lemma filter_all {A} (f : A -> bool) l : (forall x, In x l -> f x = true) -> filter f l = l.
Proof. induction l as [|x l IH]; intro H; [reflexivity|]. cbn [filter]. rewrite (H x (or_introl eq_refl)). f_equal. apply IH. intros y Hy. apply H. right; auto. Qed.
Lemma filter_levels n t level target : TR n t -> nth_error (tl (t_decisions t)) level = Some target ->
  firstn target (t_steps t) = filter (fun s => s_level s <=? level) (t_steps t) /\
  skipn target (t_steps t) = filter (fun s => level <? s_level s) (t_steps t).
Proof.
  intros HT Et. pose proof (back_level n t level target HT Et) as B. pose proof (proj1 (back_target n t level target HT Et)) as Lt.
  assert (A1 : forall s, In s (firstn target (t_steps t)) -> s_level s <= level).
  { intros s Hi. apply In_nth_error in Hi as [i E]. rewrite nth_error_firstn in E. destruct (Nat.ltb_spec i target); [|discriminate]. apply (B i s E); auto. }
  assert (A2 : forall s, In s (skipn target (t_steps t)) -> level < s_level s).
  { intros s Hi. apply In_nth_error in Hi as [i E]. rewrite nth_error_skipn in E. pose proof (B _ _ E). lia. }
  rewrite <- (firstn_skipn target (t_steps t)) at 2 4. rewrite !filter_app. split.
  - rewrite (filter_none _ (skipn _ _)), app_nil_r; [|intros s Hi; specialize (A2 s Hi); apply Nat.leb_gt; auto].
    symmetry. apply filter_all. intros s Hi. apply Nat.leb_le. auto.
  - rewrite (filter_none _ (firstn _ _)); [|intros s Hi; specialize (A1 s Hi); apply Nat.ltb_ge; auto]. cbn [app].
    symmetry. apply filter_all. intros s Hi. apply Nat.ltb_lt. auto.
Qed.

(** Translations to the vocabulary of Drivers_Search. *)
Section T.
Variables (n : nat) (es : list lent) (p : prop).
Hypothesis H : PI n es p.

Lemma holds_stored c : holds_clause p c <-> stored n es (p_binary p) c.
Proof.
  split.
  - intros [(r & E & Hne)|(a & b & -> & bs & E & Hb)].
    + left. destruct (LR_lits_rev _ _ (pi_lr _ _ _ _ H) r c E) as (h & Hi). eauto.
    + right. exists a, b. split; auto. unfold bin_containing, vget in E.
      destruct (nth_error (p_binary p) (cidx a)) as [bs'|] eqn:En; [|discriminate]. inversion E; subst bs'.
      assert (Hlen : cidx a < 2 * n). { rewrite <- (bi_len _ _ (pi_bi _ _ _ _ H)). apply nth_error_Some. congruence. }
      split; [|unfold bin; rewrite (nth_error_nth _ _ _ En); auto].
      apply cidx_lt. auto.
  - intros [(c0 & h & Hi & Hne)|(x & y & -> & Hx & Hy)].
    + left. exists c0. split; auto. eapply LR_lits; [apply H|exact Hi].
    + right. exists x, y. split; auto. exists (bin (p_binary p) x). split; auto.
      unfold bin_containing, vget, bin. assert (Hlt : cidx x < length (p_binary p)).
      { rewrite (bi_len _ _ (pi_bi _ _ _ _ H)). apply cidx_lt; auto. }
      rewrite (nth_error_nth' _ [] Hlt). reflexivity.
Qed.

Lemma rsn_reason s rest : In s (t_steps (p_trail p)) -> (reason_rest p s rest <-> rsn es s rest).
Proof.
  intro Hs. apply In_nth_error in Hs as [i Hi]. pose proof (pi_ri _ _ _ _ H i s Hi) as R.
  unfold reason_rest, rsn. destruct (s_reason s) as [| |b|c] eqn:Er; try tauto.
  - split; [tauto|]. intros ->. split; auto. apply holds_stored. right. exists (s_lit s), b. split; auto. split; [|tauto].
    eapply VR_range; [apply (pi_vr _ _ _ _ H)|]. apply in_slits. eauto.
  - split; [intro E; eapply LR_lits_rev; eauto; apply H|intros (h & G); eapply LR_lits; eauto; apply H].
Qed.

Lemma true_at_slev l k : true_at p l k <-> In l (slits (t_steps (p_trail p))) /\ slev (t_steps (p_trail p)) l = k.
Proof.
  split.
  - intros (s & Hs & <- & <-). split; [apply in_map; auto|]. apply In_nth_error in Hs as [i Hi]. eapply tr_slev; [apply H|eauto].
  - intros [Hl <-]. apply in_slits in Hl as (i & s & Ei & <-). exists s. split; [eapply nth_error_In; eauto|]. split; auto.
    symmetry. eapply tr_slev; [apply H|eauto].
Qed.
Lemma before_firstn i l : before (t_steps (p_trail p)) i l -> In l (firstn i (trail_lits p)).
Proof.
  intros (j & E & L). destruct (lpos_some _ _ _ E) as (s & A & <-). unfold trail_lits. rewrite firstn_map. apply in_map.
  apply nth_error_In with j. rewrite nth_error_firstn. destruct (Nat.ltb_spec j i); [auto|lia].
Qed.

(** The level of a step is the number of decisions up to it. *)
Lemma count_dec i : i <= length (t_steps (p_trail p)) ->
  length (filter is_decision (firstn i (t_steps (p_trail p)))) = length (filter (fun d => d <? i) (tl (t_decisions (p_trail p)))).
Proof.
  pose proof (pi_tr _ _ _ _ H) as HT. induction i as [|i IH]; intro Hi.
  - cbn [firstn]. cbn [filter length]. rewrite (filter_none (fun d => d <? 0)); [reflexivity|]. intros d _. apply Nat.ltb_ge. lia.
  - destruct (nth_error (t_steps (p_trail p)) i) as [s|] eqn:Es; [|apply nth_error_None in Es; lia].
    rewrite (firstn_S_nth _ _ _ Es), filter_app, app_length, IH by lia. clear IH.
    pose proof (tr_rdec _ _ HT i s Es) as R. pose proof (tr_sort _ _ HT) as SS. revert R SS. generalize (tl (t_decisions (p_trail p))) as ds.
    intros ds R SS. assert (ND : NoDup ds).
    { clear -SS. induction SS as [|x r SS IH F]; constructor; auto. rewrite Forall_forall in F. intro Q. specialize (F _ Q). lia. }
    assert (E : length (filter (fun d => d <? S i) ds) = length (filter (fun d => d <? i) ds) + if in_dec Nat.eq_dec i ds then 1 else 0).
    { clear -ND. induction ds as [|d ds IH]; [reflexivity|]. inversion ND as [|? ? N1 N2]; subst. specialize (IH N2). cbn [filter].
      destruct (Nat.ltb_spec d (S i)), (Nat.ltb_spec d i); cbn [length]; destruct (in_dec Nat.eq_dec i ds), (in_dec Nat.eq_dec i (d :: ds)) as [Q|Q]; cbn [length] in *; try lia.
      all: exfalso; try (apply Q; right; auto; fail); try (destruct Q as [Q|Q]; [lia|contradiction]); try (assert (d = i) by lia; subst; contradiction).
      all: apply Q; left; lia. }
    rewrite E. f_equal. cbn [filter]. unfold is_decision. destruct (in_dec Nat.eq_dec i ds) as [Q|Q].
    + rewrite (proj2 R Q). reflexivity.
    + destruct (s_reason s); auto. exfalso. apply Q, R. reflexivity.
Qed.
End T.
