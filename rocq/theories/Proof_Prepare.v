(** prepare_for_backtracking and the analysis without minimization. *)
From Coq Require Import NArith List Bool Arith Lia Permutation Sorted ZifyN ZifyNat ZifyBool.
From Verif Require Import Model_Base Model_Lit Model_PartialAssignment Model_Header Model_Arena Model_Prop
  Model_Heap Model_Vsids Model_Analysis Spec Drivers_Arena Proof_Base Proof_PA Proof_Lit Proof_Header Proof_Arena
  Proof_ArenaHist Proof_Long Proof_Trail Proof_Heap Proof_Backtrack Proof_Inv Proof_Propagate Proof_PropOps Proof_Glue
  Proof_Analysis Proof_Derive Proof_Minimize Proof_Size Proof_Learn Model_Prepare.
Import ListNotations.

Lemma sw_inj a b : FinFun.Injective (sw a b).
Proof.
  intros x y. unfold sw. destruct (Nat.eqb_spec x a), (Nat.eqb_spec x b), (Nat.eqb_spec y a), (Nat.eqb_spec y b); intros; subst; lia.
Qed.
Lemma vswap_perm {A} (v : list A) a b x y :
  nth_error v a = Some x -> nth_error v b = Some y ->
  exists v', vswap v a b = Ret v' /\ Permutation v v' /\ forall p, nth_error v' p = nth_error v (sw a b p).
Proof.
  intros Ha Hb. destruct (vswap_ok v a b x y Ha Hb) as (v' & E & L & H). exists v'. split; auto. split; auto.
  apply Permutation_nth_error. split; auto. exists (sw a b). split; [apply sw_inj|auto].
Qed.

Lemma prepare_loop_ok t m : forall i clause largest, 2 <= i -> i + m = length clause ->
  (forall x, In x (tl clause) -> exists k, trail_index t x = Ret k) ->
  (exists b, nth_error clause 1 = Some b /\ trail_index t b = Ret largest) ->
  (forall j x, 1 <= j < i -> nth_error clause j = Some x -> exists k, trail_index t x = Ret k /\ k <= largest) ->
  exists clause' largest', prepare_loop t clause largest (seq i m) = Ret (clause', largest') /\
    Permutation (tl clause) (tl clause') /\ nth_error clause' 0 = nth_error clause 0 /\
    (exists b, nth_error clause' 1 = Some b /\ trail_index t b = Ret largest') /\
    (forall x, In x (tl clause') -> exists k, trail_index t x = Ret k /\ k <= largest').
Proof.
  induction m as [|m IH]; intros i clause largest Hi Hl Ht Hb Hp.
  - exists clause, largest. cbn [seq prepare_loop]. split; auto. split; auto. split; auto. split; auto.
    intros x Hx. apply In_nth_error in Hx as [j Hj]. assert (E : nth_error clause (S j) = Some x) by (destruct clause; [destruct j; discriminate|exact Hj]).
    apply (Hp (S j) x); auto. assert (S j < length clause) by (apply nth_error_Some; congruence). lia.
  - cbn [seq prepare_loop]. destruct (nth_error clause i) as [l|] eqn:El; [|apply nth_error_None in El; lia].
    rewrite (proj2 (vget_ok _ _ _) El). cbn [bind].
    destruct clause as [|c0 cs]; [destruct i; discriminate|]. destruct i as [|i]; [lia|]. cbn [tl] in *.
    destruct (Ht l) as [k Ek]; [eapply nth_error_In; exact El|]. rewrite Ek. cbn [bind].
    destruct (Nat.ltb_spec largest k) as [G|G].
    + destruct Hb as (b & Eb & Eb2).
      destruct (vswap_perm (c0 :: cs) 1 (S i) b l Eb El) as (v' & -> & P & HN). cbn [bind].
      assert (H0 : nth_error v' 0 = Some c0) by (rewrite HN; unfold sw; destruct (Nat.eqb_spec 0 1), (Nat.eqb_spec 0 (S i)); try lia; reflexivity).
      destruct v' as [|c1 cs']; [discriminate|]. cbn in H0. inversion H0; subst c1. apply Permutation_cons_inv in P.
      destruct (IH (S (S i)) (c0 :: cs') k) as (c2 & l2 & E & Q1 & Q2 & Q3 & Q4); try lia.
      * apply Permutation_length in P. cbn [length] in *. lia.
      * intros x Hx. apply Ht. eapply Permutation_in; [apply Permutation_sym; exact P|exact Hx].
      * exists l. split; auto. rewrite HN. unfold sw. rewrite Nat.eqb_refl. exact El.
      * intros j x Hj Ej. rewrite HN in Ej. unfold sw in Ej. destruct (Nat.eqb_spec j 1) as [->|N1].
        -- rewrite El in Ej. inversion Ej; subst. eauto.
        -- destruct (Nat.eqb_spec j (S i)) as [->|N2].
           ++ rewrite Eb in Ej. inversion Ej; subst. exists largest. split; auto. lia.
           ++ destruct (Hp j x) as (k' & E1 & E2); auto; [lia|]. exists k'. split; auto. lia.
      * exists c2, l2. split; auto. split; [eapply perm_trans; [exact P|exact Q1]|]. auto.
    + apply (IH (S (S i)) (c0 :: cs) largest); auto; [lia|].
      intros j x Hj Ej. destruct (Nat.eq_dec j (S i)) as [->|N].
      * rewrite El in Ej. inversion Ej; subst. eauto.
      * apply (Hp j x); auto. lia.
Qed.

Lemma prepare_ok n es p : PI n es p -> forall an der a, an_derived an = der ++ [a] ->
  (forall x, In x der -> In (neg x) (slits (t_steps (p_trail p)))) ->
  exists level rest, prepare_for_backtracking an p = Ret (level, an_set_derived an (a :: rest)) /\
    Permutation der rest /\ (forall x, In x rest -> slev (t_steps (p_trail p)) (neg x) <= level) /\
    match rest with [] => level = 0 | b :: _ => slev (t_steps (p_trail p)) (neg b) = level end.
Proof.
  intros HP an der a Eder Hin. pose proof (pi_tr _ _ _ _ HP) as HT. unfold prepare_for_backtracking. rewrite Eder.
  rewrite app_length. cbn [length]. replace (length der + 1 - 1) with (length der) by lia.
  destruct der as [|x0 der0].
  { exists 0, []. cbn. split; auto. split; auto. split; auto. intros x []. }
  cbn [length]. set (m := length der0).
  assert (E1 : nth_error ((x0 :: der0) ++ [a]) 0 = Some x0) by reflexivity.
  assert (E2 : nth_error ((x0 :: der0) ++ [a]) (S m) = Some a).
  { rewrite nth_error_app2 by (cbn; lia). cbn [length]. fold m. rewrite Nat.sub_diag. reflexivity. }
  destruct (vswap_perm _ _ _ _ _ E1 E2) as (v' & -> & P & HN). cbn [bind].
  assert (H0 : nth_error v' 0 = Some a) by (rewrite HN; unfold sw; cbn [Nat.eqb]; exact E2).
  destruct v' as [|c1 cs]; [discriminate|]. cbn in H0. inversion H0; subst c1.
  assert (P1 : Permutation (x0 :: der0) cs).
  { apply Permutation_cons_inv with (a := a). eapply perm_trans; [|exact P]. apply Permutation_cons_append. }
  assert (HI : forall x, In x cs -> In (neg x) (slits (t_steps (p_trail p)))).
  { intros x Hx. apply Hin. eapply Permutation_in; [apply Permutation_sym; exact P1|exact Hx]. }
  destruct (Nat.ltb_spec 1 (S m + 1)) as [_|G]; [|lia].
  pose proof (Permutation_length P1) as Lcs. cbn [length] in Lcs. fold m in Lcs.
  destruct cs as [|b cs]; [discriminate|].
  destruct (tr_index_neg n _ HT b (HI b (or_introl eq_refl))) as (k & sb & Ek & _).
  change (vget (a :: b :: cs) 1) with (Ret b). cbn [bind]. rewrite Ek. cbn [bind].
  destruct (prepare_loop_ok (p_trail p) (S m + 1 - 2) 2 (a :: b :: cs) k) as (c' & l' & -> & Q1 & Q2 & (b' & Q3 & Q4) & Q5).
  - lia.
  - cbn [length] in *. lia.
  - intros x Hx. destruct (tr_index_neg n _ HT x (HI x Hx)) as (i & s & E & _). eauto.
  - exists b. auto.
  - intros j x Hj Ej. assert (j = 1) by lia. subst. cbn in Ej. inversion Ej; subst. eauto.
  - cbn [bind tl] in *. destruct c' as [|a' c']; [discriminate|]. cbn in Q2. inversion Q2; subst a'. cbn [tl] in *.
    destruct c' as [|b0 c']; [discriminate|]. cbn in Q3. inversion Q3; subst b0.
    assert (HI2 : forall x, In x (b' :: c') -> In (neg x) (slits (t_steps (p_trail p)))).
    { intros x Hx. apply HI. eapply Permutation_in; [apply Permutation_sym; exact Q1|exact Hx]. }
    destruct (tr_index_neg n _ HT b' (HI2 b' (or_introl eq_refl))) as (i & s & F1 & _ & F2 & _ & F3).
    rewrite F1 in Q4. inversion Q4; subst i. rewrite (proj2 (vget_ok _ _ _) F2). cbn [bind].
    exists (s_level s), (b' :: c'). split; auto. split; [eapply perm_trans; eauto|]. split; auto.
    intros x Hx. destruct (tr_index_neg n _ HT x (HI2 x Hx)) as (j & sx & X1 & _ & X2 & _ & X3).
    destruct (Q5 x Hx) as (k' & X4 & X5). rewrite X1 in X4. inversion X4; subst k'. rewrite X3. eapply tr_mono; eauto.
Qed.

Lemma analyze_plain n es p dbg cx an c cb : PI n es p -> 1 <= decision_level (p_trail p) -> AN an -> CB n cb -> conf_ok n es p c ->
  exists cl, conflict_lits (p_long p) c = Ret cl /\
  ((analyze_conflict_with false dbg cx an p c cb = Panic PFull /\ afull (p_long p)) \/
   exists cx' an' p' cb' es1 es' h a rest r level target,
     analyze_conflict_with false dbg cx an p c cb = Ret (cx', an', p', cb') /\
     analyzed n es p cx cb cl cx' an' p' cb' es1 es' h a rest r level target /\
     exists v1 der u k V B, az_trace n es p c cb cb' cl es1 es' h a rest r target v1 der u k V B /\ Permutation der rest).
Proof.
  intros HP Hd HA HC Hc. pose proof (pi_tr _ _ _ _ HP) as HT. unfold analyze_conflict_with.
  destruct (Nat.eqb_spec (decision_level (p_trail p)) 0) as [G|_]; [lia|]. cbn [negb].
  destruct (derive_exact n es p an c cb HP Hd HA HC Hc) as (cl & p1 & an1 & cb1 & der & u & k & V & B & E1 & Ecl & HS & HCB & HA1 & HG1 & Hder & HD & HTC).
  remember (bump_all (t_steps (p_trail p)) B es) as es1 eqn:Ees1.
  exists cl. split; auto. rewrite E1. cbn [bind].
  destruct (cb_analyzed_ok n cb1 (proj1 HCB)) as (B1 & B2 & B3). set (cb2 := cb_analyzed_conflict cb1) in *.
  assert (Ecb2 : cb_vsids cb2 = vsids_decay (cb_vsids cb1)) by reflexivity. clearbody cb2.
  pose proof (PS_trail _ _ _ _ _ HS) as Et. pose proof (ps_pi _ _ _ _ _ HS) as HP1.
  pose proof (do_u _ _ _ _ _ HD) as (iu & Eu & Lu). pose proof (do_lev _ _ _ _ _ HD) as Du. pose proof (do_rest _ _ _ _ _ HD) as Dr.
  pose proof (do_nd _ _ _ _ _ HD) as Dn. pose proof (do_imp _ _ _ _ _ HD) as Di. clear HD.
  set (ss := t_steps (p_trail p)) in *. set (d := decision_level (p_trail p)) in *.
  assert (Hlu : slev ss (s_lit u) = d) by (unfold ss, d; rewrite (tr_slev n _ HT _ _ Eu); auto).
  assert (Hinu : In (s_lit u) (slits ss)) by (apply in_slits; eauto).
  set (a := neg (s_lit u)) in *.
  (* the clause after minimization *)
  assert (HM : exists level rest m', prepare_for_backtracking an1 p1 = Ret (level, an_set_min (an_set_derived an1 (a :: rest)) m') /\ MC m' /\
     level < d /\ (forall x, In x rest -> In (neg x) (slits ss) /\ slev ss (neg x) <= level) /\
     match rest with [] => level = 0 | b :: _ => slev ss (neg b) = level end /\ NoDup (a :: rest) /\ learned_from es ss cl (a :: rest) /\ Permutation der rest).
  { destruct (prepare_ok n es1 p1 HP1 an1 der a) as (level & rest & Em & G1 & G2 & G3).
    - exact Hder.
    - rewrite Et. intros x Hx. apply Dr; auto.
    - exists level, rest, (an_min an1). split; [rewrite Em; destruct an1; reflexivity|]. split; [apply HA1|].
      rewrite Et in G2, G3. fold ss in G2, G3.
      assert (Hlt : level < d).
      { destruct rest as [|b rest]; [lia|]. rewrite <- G3. apply Dr. eapply Permutation_in; [apply Permutation_sym; exact G1|]. left; auto. }
      split; [exact Hlt|]. split.
      { intros x Hx. split; [|apply G2; auto]. apply Dr. eapply Permutation_in; [apply Permutation_sym; exact G1|auto]. }
      split; [destruct rest; auto|]. split; [|split].
      + apply NoDup_cons_iff. split; [|eapply Permutation_NoDup; eauto]. intro Q. apply (Permutation_in _ (Permutation_sym G1)) in Q.
        destruct (Dr a Q) as [_ X]. unfold a in X. rewrite neg_neg in X. lia.
      + intros U HU Hx. apply (Di U HU). intros x Hi. apply Hx. apply in_app_or in Hi as [Hi|[<-|[]]]; [right|left; auto].
        eapply Permutation_in; eauto.
      + exact G1. }
  destruct HM as (level & rest & m' & Em & HMC & Hlt & Hrest & Hb & Hnd & Hrup & Hperm).
  assert (Hincl : incl rest der) by (intros x Hx; eapply Permutation_in; [apply Permutation_sym; exact Hperm|auto]).
  rewrite Em. cbn [bind]. set (an2 := an_set_min _ _) in *.
  destruct (backtrack_ok n dbg p1 level cb2) as (target & ti & v' & cb' & Etg & Eb & HTb & HVb & HCb & _ & Henq & Hval & Hinc & Hph & _);
    [rewrite Et; auto|apply HP1|auto|rewrite Et; auto|].
  rewrite Eb. cbn [bind]. set (p2 := p_set_vt p1 v' (t_back (p_trail p1) level target ti)) in *.
  assert (HP2 : PI n es1 p2) by (apply PI_back; auto).
  assert (Ess2 : t_steps (p_trail p2) = firstn target ss) by (unfold p2; cbn; rewrite Et; auto).
  assert (Eds2 : t_decisions (p_trail p2) = firstn (level + 1) (t_decisions (p_trail p))) by (unfold p2; cbn; rewrite Et; auto).
  assert (Edl : decision_level (p_trail p2) = level).
  { unfold decision_level. rewrite Eds2, firstn_length. unfold d, decision_level in Hlt. lia. }
  rewrite Et in Etg.
  assert (Hinb : forall x, In x (slits (firstn target ss)) <-> In x (slits ss) /\ slev ss x <= level).
  { intro x. apply (back_in n (p_trail p) level target HT Etg). }
  assert (Ha : In (neg a) (slits ss)) by (unfold a; rewrite neg_neg; auto).
  assert (Hal : slev ss (neg a) = d) by (unfold a; rewrite neg_neg; auto).
  assert (Hf2 : falsified (firstn target ss) rest). { intros x Hx. apply Hinb. apply Hrest; auto. }
  destruct (learn_ok n es1 p2 dbg HP2 cx an2 a rest) as [[EL HF]|(es' & p' & h & r & EL & L1 & L2 & L3 & L4 & L5 & L6 & L7 & L8 & L9 & L10)].
  - apply (falsified_vidx n es p a HP Ha).
  - rewrite Ess2. intro Q. apply Hinb in Q as [Q _]. eapply VR_cons; [apply (pi_vr _ _ _ _ HP)|exact Q|exact Ha].
  - rewrite Ess2. intro Q. apply Hinb in Q as [_ Q]. lia.
  - rewrite Ess2. auto.
  - rewrite Ess2, Edl. destruct rest as [|b rest']; auto. unfold ss. rewrite back_slev; [exact Hb|]. apply Hf2. simpl; auto.
  - apply HA1.
  - rewrite Edl. cbn. fold d in HG1. lia.
  - reflexivity.
  - left. rewrite EL. split; [reflexivity|]. destruct HF as [HF|HF].
    + unfold afull in *. apply derive_size in E1. rewrite <- E1. exact HF.
    + exfalso. assert (HB : length (a :: rest) <= n).
      { rewrite <- (map_length vidx). rewrite <- (seq_length n 0). apply NoDup_incl_length.
        - assert (ND : NoDup (map neg (a :: rest))). { apply FinFun.Injective_map_NoDup; auto. intros x y Exy. rewrite <- (neg_neg x), <- (neg_neg y). congruence. }
          rewrite (map_ext vidx (fun x => vidx (neg x))) by (intro x; symmetry; apply vidx_neg). rewrite <- (map_map neg vidx).
          eapply vidx_cons_nodup; [apply (pi_vr _ _ _ _ HP)|exact ND|]. intros y Hy. apply in_map_iff in Hy as (x & <- & [<-|Hx]); auto. apply Hrest; auto.
        - intros v Hv. apply in_map_iff in Hv as (x & <- & Hx). apply in_seq. split; [lia|]. apply (falsified_vidx n es p x HP).
          destruct Hx as [<-|Hx]; auto. apply Hrest; auto. }
      pose proof (pi_n _ _ _ _ HP). unfold HEADER_MASK in HF. lia.
  - right. rewrite EL. cbn [bind]. eexists _, an2, p', cb', es1, es', h, a, rest, r, level, target. split; [reflexivity|].
    assert (HTR : az_trace n es p c cb cb' cl es1 es' h a rest r target (cb_vsids cb1) der u k V B).
    { constructor; auto; try congruence. rewrite Ess2 in L10. exact L10. }
    split; [|exists (cb_vsids cb1), der, u, k, V, B; split; [exact HTR|exact Hperm]].
    rewrite Ess2, Edl in L6. rewrite Et in Henq, Hph. fold ss in Henq, Hph.
    assert (Hus : p_unsat p2 = p_unsat p) by (unfold p2; rewrite (ps_p _ _ _ _ _ HS); reflexivity).
    assert (Hbi : p_binary p2 = p_binary p) by (unfold p2; rewrite (ps_p _ _ _ _ _ HS); reflexivity).
    rewrite Hbi in L2.
    constructor; auto; try apply HS.
    + constructor; cbn; try apply HA1. auto.
    + congruence.
    + rewrite L8. unfold p2. cbn. rewrite Et. auto.
    + congruence.
    + intro v. rewrite Henq, B2. rewrite (proj1 (proj2 HCB)). tauto.
    + rewrite Hph, B3. rewrite (proj2 (proj2 HCB)). auto.
Qed.
