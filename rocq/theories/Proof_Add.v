(** Building the formula: add_clause before the first solve call. *)
From Coq Require Import NArith List Bool Arith Lia Permutation Sorted ZifyN ZifyNat ZifyBool.
From Verif Require Import Model_Base Model_Lit Model_PartialAssignment Model_Header Model_Arena Model_Prop
  Model_Heap Model_Vsids Model_Analysis Model_Luby Model_Solver Spec Drivers_Arena Proof_Base Proof_PA Proof_Lit Proof_Header Proof_Arena
  Proof_ArenaHist Proof_Long Proof_Trail Proof_Heap Proof_Backtrack Proof_Inv Proof_Propagate Proof_PropOps Proof_Gc Proof_Glue
  Proof_Analysis Proof_Minimize Proof_Learn Proof_DB Proof_Reduce Proof_Size Proof_Solver Proof_Search Proof_Luby Proof_Solve.
Import ListNotations.

Lemma SI_resize K n n' F L steps es cx se : SI K n F L steps es cx se -> n <= n' -> (N.of_nat n' <= 1073741824)%N ->
  exists se', search_resize se n' = Ret se' /\ SI K n' F L steps es (cx_set_vars cx n') se' /\
    se_prop se' = prop_resize (se_prop se) n'.
Proof.
  intros H Hn Hb. unfold search_resize, vsids_resize.
  pose proof (s_cb _ _ _ _ _ _ _ _ H) as HC. pose proof (cb_len _ _ HC) as HL. cbn [cb_vsids] in HL.
  destruct (heap_resize_enqueued_ok (vs_activity (se_vsids se)) n' 0%N (cb_hs _ _ HC)) as (h' & E & A & B & C & _); [lia|].
  rewrite E. cbn [bind]. eexists. split; [reflexivity|]. split; [|reflexivity].
  constructor; cbn [se_prop se_analysis se_vsids se_phases]; try apply H.
  - apply PI_resize with (n := n); auto. apply H.
  - pose proof (s_db _ _ _ _ _ _ _ _ H) as HD. pose proof (s_pi _ _ _ _ _ _ _ _ H) as HP.
    constructor; try apply HD. intro x. etransitivity; [|apply HD].
    replace (bin (p_binary (prop_resize (se_prop se) n')) x) with (bin (p_binary (se_prop se)) x); auto.
    unfold prop_resize; cbn [p_binary]. unfold bin, bin_resize. symmetry. eapply nth_vresize_def; [symmetry; apply (bi_len _ _ (pi_bi _ _ _ _ HP))|lia].
  - constructor; cbn [cb_vsids vs_activity cb_phases]; auto.
    + rewrite B. apply vresize_length.
    + unfold phases_resize. apply vresize_length.
  - intros l Hl N1 N2. unfold enq; cbn [cb_vsids vs_activity]. apply C. split; auto.
    destruct (Nat.lt_ge_cases (vidx l) n) as [G|G]; [left|right; lia]. apply (s_cov _ _ _ _ _ _ _ _ H); auto.
  - pose proof (s_st _ _ _ _ _ _ _ _ H) as HS. constructor; try apply HS. reflexivity.
  - intros c x Hc Hx. pose proof (s_var _ _ _ _ _ _ _ _ H c x Hc Hx). lia.
  - cbn [cx_set_vars cx_stats cx_with st_fixed_vars]. pose proof (s_fix _ _ _ _ _ _ _ _ H). lia.
Qed.

Definition Kof (dbg : bool) (s : solver) : nat := if dbg then 0 else length (se_ss (so_se s)).

(** The state between [new] and the first [solve]. *)
Record PSI (dbg : bool) (n : nat) (F : list (list N)) (s : solver) : Prop := {
  ps_si : exists es, SOI (Kof dbg s) n F [] [] es s;
  ps_q : t_propagated (p_trail (se_prop (so_se s))) = 0;
  ps_d : tl (t_decisions (p_trail (se_prop (so_se s)))) = [];
  ps_u : forall x, In x (se_ss (so_se s)) -> s_reason x = RUnit;
  ps_us : p_unsat (se_prop (so_se s)) = true -> up_conflict F [];
  ps_sc : so_sc s = schedule_empty;
  ps_cf : st_conflicts (cx_stats (so_ctx s)) = 0 /\ st_restarts (cx_stats (so_ctx s)) = 0 }.

Lemma SI_new : SI 0 0 [] [] [] [] ctx_empty search_empty.
Proof.
  constructor; cbn.
  - constructor; cbn; try lia; auto.
    + constructor; cbn; auto; try (intros; contradiction); try (intros [|]; discriminate).
      * constructor.
    + apply VR_empty.
    + apply LR_empty.
    + intros c h l [].
    + constructor; cbn; auto. intros; lia.
    + intros [|]; discriminate.
    + constructor; [intros; lia|intros c h a b r []].
    + intros c h a b r [].
    + intros x y Hx. lia.
  - constructor; cbn; auto; try (intros; contradiction); try apply meq_nil. intro x. unfold bin; destruct (cidx x); constructor.
  - constructor; cbn; auto. apply HS_empty.
  - intros l Hl. lia.
  - constructor; cbn; auto; try (intros [|]; discriminate). split; [auto|]. split; intros [|]; discriminate.
  - intros c h l [].
  - constructor; reflexivity.
  - constructor.
  - intros st E. discriminate.
  - intros c x [].
  - discriminate.
  - intros i j si sj _ A. destruct i; discriminate.
  - lia.
Qed.

Lemma PSI_new dbg : PSI dbg 0 [] solver_new.
Proof.
  constructor; cbn; auto; try contradiction; try discriminate. exists []. unfold Kof, SOI. cbn.
  destruct dbg; apply SI_new.
Qed.

Lemma clause_vars_lt c x : In x c -> vidx x < clause_var_count c.
Proof. induction c as [|a r IH]; cbn [clause_var_count fold_right]; intros []; [subst; lia|]. specialize (IH H). unfold clause_var_count in IH. lia. Qed.
Lemma clause_vars_valid c : valid_clause c -> (N.of_nat (clause_var_count c) <= 1073741824)%N.
Proof.
  induction c as [|a r IH]; cbn [clause_var_count fold_right]; intro H; [lia|].
  assert (valid a) by (apply H; left; auto). specialize (IH (fun l Hl => H l (or_intror Hl))). unfold clause_var_count in IH.
  assert (N.of_nat (vidx a + 1) <= 1073741824)%N; [|lia]. unfold valid in *. unfold vidx. rewrite N.shiftr_div_pow2. change (2 ^ 1)%N with 2%N.
  assert (a / 2 < 1073741824)%N by (apply N.div_lt_upper_bound; lia). lia.
Qed.

Lemma STI_input n F L es s h cl b es1 b' : STI n F L es s -> db_add h cl es b es1 b' -> lh_redundant h = false ->
  STI n (F ++ [cl]) L es1 (st_add s h cl).
Proof.
  intros H HA Hr.
  assert (Eb : length (filter binb (L ++ F ++ [cl])) = length (filter binb (L ++ F)) + (if binb cl then 1 else 0)).
  { rewrite app_assoc, filter_app, app_length. cbn [filter]. destruct (binb cl); cbn [length]; lia. }
  constructor; rewrite ?Eb, ?(live_add _ _ _ _ _ _ _ HA), ?app_length, ?Hr.
  all: destruct cl as [|x [|y [|z cl]]]; cbn [st_add longb binb length Nat.leb Nat.eqb andb Bool.eqb].
  all: rewrite ?Hr; cbn [st_redundant st_irredundant st_binary st_vars length].
  all: pose proof (sti_red _ _ _ _ _ H); pose proof (sti_irr _ _ _ _ _ H); pose proof (sti_bin _ _ _ _ _ H); pose proof (sti_vars _ _ _ _ _ H); lia.
Qed.

Lemma st_add_fixed s h cl : st_fixed_vars (st_add s h cl) = st_fixed_vars s.
Proof. unfold st_add. destruct cl as [|? [|? [|]]]; auto. destruct (lh_redundant h); auto. Qed.

Lemma se_eta se : mkSearch (se_prop se) (se_analysis se) (se_vsids se) (se_phases se) = se.
Proof. destruct se; reflexivity. Qed.

Definition se_with (se : search) (p : prop) : search := mkSearch p (se_analysis se) (se_vsids se) (se_phases se).

(** More input clauses keep a proof valid. *)
Lemma drat_run_mono F c steps L : drat_run F steps L -> drat_run (F ++ [c]) steps L.
Proof.
  induction 1 as [|steps L c0 _ IH R|steps c0 L1 c1 L2 _ IH P]; [constructor|constructor; auto|econstructor; eauto].
  revert R. unfold RUP. apply up_conflict_mono; [|apply incl_refl]. rewrite app_assoc. apply incl_appl, incl_refl.
Qed.
Lemma refuted_mono F c steps : refuted F steps -> refuted (F ++ [c]) steps.
Proof.
  intros (st1 & st2 & L1 & E & D & U). exists st1, st2, L1. split; auto. split; [apply drat_run_mono; auto|].
  eapply up_conflict_mono; [|apply incl_refl|exact U]. rewrite app_assoc. apply incl_appl, incl_refl.
Qed.

(** The new state after storing the clause. *)
Lemma SI_input_gen K K' n F L steps es cx se cl es' p' : SI K n F L steps es cx se -> (forall x, In x cl -> vidx x < n) ->
  PI n es' p' -> db_add lh_new_input cl es (p_binary (se_prop se)) es' (p_binary p') ->
  (p_unsat (se_prop se) = true -> p_unsat p' = true) ->
  (exists ext, t_steps (p_trail p') = se_ss se ++ ext /\ (forall s, In s ext -> s_reason s = RUnit -> cl = [s_lit s])) ->
  (forall l, cl = [l] -> p_unsat p' = true \/ exists s, In s (t_steps (p_trail p')) /\ s_lit s = l /\ s_level s = 0) ->
  (cl = [] -> p_unsat p' = true) -> (p_unsat p' = true -> refuted (F ++ [cl]) steps) -> unprot es' ->
  dupK K' (t_steps (p_trail p')) -> K <= K' ->
  SI K' n (F ++ [cl]) L steps es' (cx_with cx (st_add (cx_stats cx) lh_new_input cl)) (se_with se p').
Proof.
  intros H Hv HP HA Hus (ext & Ex & Hext) Hu He Hc Hun Hd HK. constructor; cbn [se_with se_prop se_analysis se_vsids se_phases]; auto; try apply H.
  - change (F ++ [cl]) with (Ladd (negb (lh_redundant lh_new_input)) F cl). change L with (Ladd (lh_redundant lh_new_input) L cl).
    eapply DBR_add; [apply H|exact HA|auto| | |auto|auto].
    + intros s Hs R. rewrite Ex in Hs. apply in_app_or in Hs as [Hs|Hs]; auto.
    + intros s Hs Lv. exists s. split; auto. rewrite Ex. apply in_or_app; auto.
  - eapply cover_incl; [apply H|]. rewrite Ex, map_app. apply incl_appl, incl_refl.
  - cbn [cx_with cx_stats]. eapply STI_input; eauto. apply H.
  - apply drat_run_mono, H.
  - intros c x Hc' Hx. apply in_app_or in Hc' as [Hc'|[<-|[]]]; auto. eapply (s_var _ _ _ _ _ _ _ _ H); eauto.
  - cbn [cx_with cx_stats]. rewrite st_add_fixed. pose proof (s_fix _ _ _ _ _ _ _ _ H). lia.
Qed.
Lemma SI_input K K' n F es cx se cl es' p' : SI K n F [] [] es cx se -> (forall x, In x cl -> vidx x < n) ->
  PI n es' p' -> db_add lh_new_input cl es (p_binary (se_prop se)) es' (p_binary p') ->
  (p_unsat (se_prop se) = true -> p_unsat p' = true) ->
  (exists ext, t_steps (p_trail p') = se_ss se ++ ext /\ (forall s, In s ext -> s_reason s = RUnit -> cl = [s_lit s])) ->
  (forall l, cl = [l] -> p_unsat p' = true \/ exists s, In s (t_steps (p_trail p')) /\ s_lit s = l /\ s_level s = 0) ->
  (cl = [] -> p_unsat p' = true) -> (p_unsat p' = true -> up_conflict (F ++ [cl]) []) -> unprot es' ->
  dupK K' (t_steps (p_trail p')) -> K <= K' ->
  SI K' n (F ++ [cl]) [] [] es' (cx_with cx (st_add (cx_stats cx) lh_new_input cl)) (se_with se p').
Proof. intros. eapply SI_input_gen; eauto. intro U. eapply refuted_now; [constructor|]. cbn [app]. auto. Qed.


Lemma verbatim_ok (dbg : bool) n F es cx (se : search) cl (K := if dbg then 0 else length (se_ss se)) : SI K n F [] [] es cx se ->
  t_propagated (p_trail (se_prop se)) = 0 -> tl (t_decisions (p_trail (se_prop se))) = [] ->
  (forall x, In x (se_ss se) -> s_reason x = RUnit) -> (p_unsat (se_prop se) = true -> up_conflict F []) ->
  (forall x, In x cl -> vidx x < n) ->
  (add_clause_verbatim dbg cx (se_prop se) lh_new_input cl = Panic PFull /\ (afull (p_long (se_prop se)) \/ (HEADER_MASK < N.of_nat (length cl))%N)) \/
  (dbg = true /\ exists l, cl = [l] /\ In [l] F /\ add_clause_verbatim dbg cx (se_prop se) lh_new_input cl = Panic PDebug) \/
  exists a cx' p' es', add_clause_verbatim dbg cx (se_prop se) lh_new_input cl = Ret (a, cx', p') /\
    SI (if dbg then 0 else length (t_steps (p_trail p'))) n (F ++ [cl]) [] [] es' cx' (se_with se p') /\
    t_propagated (p_trail p') = 0 /\ tl (t_decisions (p_trail p')) = [] /\
    (forall x, In x (t_steps (p_trail p')) -> s_reason x = RUnit) /\ (p_unsat p' = true -> up_conflict (F ++ [cl]) []) /\
    cx' = cx_with cx (st_add (cx_stats cx) lh_new_input cl).
Proof.
  intros H Hq Hdl Hu Hus Hv. pose proof (s_pi _ _ _ _ _ _ _ _ H) as HP. pose proof (s_db _ _ _ _ _ _ _ _ H) as HD.
  assert (Hd0 : decision_level (p_trail (se_prop se)) = 0) by (rewrite (tr_dl n) by apply HP; rewrite Hdl; reflexivity).
  assert (Hun := s_un _ _ _ _ _ _ _ _ H).
  assert (Hus' : p_unsat (se_prop se) = true -> up_conflict (F ++ [cl]) []).
  { intro U. eapply up_conflict_mono; [|apply incl_refl|apply Hus; auto]. apply incl_appl, incl_refl. }
  assert (Ecx : cx_with cx (cx_stats cx) = cx) by (destruct cx; reflexivity).
  assert (UNSAT : forall us' : prop, es = es -> (match cl with [] | [_] => True | _ => False end) -> up_conflict (F ++ [cl]) [] -> us' = p_set_unsat (se_prop se) true ->
    SI (if dbg then 0 else length (t_steps (p_trail us'))) n (F ++ [cl]) [] [] es cx (se_with se us')).
  { intros us' _ Hcl UC ->. rewrite <- Ecx at 1. replace (cx_stats cx) with (st_add (cx_stats cx) lh_new_input cl) at 1.
    2:{ destruct cl as [|? [|]]; auto; contradiction. }
    eapply SI_input with (K := K); eauto.
    - apply PI_unsat; auto.
    - destruct cl as [|? [|]]; try contradiction; cbn; auto.
    - exists []. rewrite app_nil_r. split; [reflexivity|]. intros s [].
    - apply (s_dup _ _ _ _ _ _ _ _ H). }
  destruct cl as [|a [|b [|c r]]]; cbn [add_clause_verbatim].
  - right; right. exists AEmpty, cx, (p_set_unsat (se_prop se) true), es.
    assert (UC : up_conflict (F ++ [[]]) []). { exists []. split; [apply in_or_app; right; left; auto|]. intros x []. }
    split; auto. split; [apply UNSAT; auto|]. cbn [st_add]. auto 10.
  - assert (Ha : vidx a < n) by (apply Hv; left; auto).
    rewrite (VR_false n (p_values (se_prop se)) _ a (pi_vr _ _ _ _ HP) Ha). cbn [bind].
    destruct (inb_spec (neg a) (slits (se_ss se))) as [I|I].
    + right; right. exists AEmpty, cx, (p_set_unsat (se_prop se) true), es.
      assert (UC : up_conflict (F ++ [[a]]) []).
      { exists [a]. split; [apply in_or_app; right; left; auto|]. intros x [<-|[]]. apply in_map_iff in I as (s & <- & Hs).
        eapply up_mono; [|apply incl_refl|eapply (up_zero (F := F) (L := [])); eauto].
        - cbn [app]. apply incl_appl, incl_refl.
        - apply In_nth_error in Hs as [i Hs]. pose proof (tr_lev_le n _ (pi_tr _ _ _ _ HP) _ _ Hs). lia. }
      split; auto. split; [apply UNSAT; auto|]. cbn [st_add]. auto 10.
    + assert (HN : dbg = true /\ In a (slits (se_ss se)) \/ (dbg = false \/ ~ In a (slits (se_ss se)))).
      { destruct dbg, (inb_spec a (slits (se_ss se))); auto. }
      destruct HN as [[-> I2]|HN].
      * right; left. split; auto. exists a. split; auto. split.
        { apply in_map_iff in I2 as (s & <- & Hs). apply (db_unit _ _ _ _ _ _ HD); auto. }
        unfold assign, assign_raw. cbn [s_lit]. rewrite vset_lt by (rewrite (tr_len _ _ (pi_tr _ _ _ _ HP)); auto). cbn [bind].
        rewrite (VR_assigned n _ _ _ (pi_vr _ _ _ _ HP) Ha). rewrite (proj2 (inb_true _ _) I2). reflexivity.
      * assert (Hf : fresh dbg (p_trail (se_prop se)) (mkStep a 0 RUnit)).
        { split; auto. cbn [s_lit s_reason]. destruct HN as [-> |HN]; auto. }
        destruct (assign_ok n es dbg (se_prop se) (mkStep a 0 RUnit) HP Ha Hf) as (v' & E & HV).
        rewrite E. cbn [bind]. right; right. exists (AUnit a), cx. eexists _, es. split; [reflexivity|].
        rewrite <- Ecx at 1 3. change (cx_stats cx) with (st_add (cx_stats cx) lh_new_input [a]) at 1 3.
        split; [|split; [auto|split; [auto|split; [|split; [auto|auto]]]]].
        -- eapply SI_input with (K := K); eauto.
           ++ eapply PI_unit with (dbg := dbg); eauto.
           ++ cbn. auto.
           ++ exists [mkStep a 0 RUnit]. split; [reflexivity|]. intros s [<-|[]] _. reflexivity.
           ++ intros l El. inversion El; subst l. right. exists (mkStep a 0 RUnit). split; auto.
              cbn [p_push p_set_vt p_trail t_push t_steps]. apply in_or_app; right; left; auto.
           ++ discriminate.
           ++ destruct HN as [-> |HN]; [apply dupK_all|]. destruct dbg; [|apply dupK_all].
              cbn [p_push p_set_vt p_trail t_push t_steps]. apply dupK_push; [apply (s_dup _ _ _ _ _ _ _ _ H)|exact HN].
           ++ unfold K. destruct dbg; [lia|]. cbn [p_push p_set_vt p_trail t_push t_steps]. rewrite app_length. lia.
        -- cbn [p_push p_set_vt p_trail t_push t_steps]. intros x Hx. apply in_app_or in Hx as [Hx|[<-|[]]]; auto.
  - destruct (bin_add_ok n (p_binary (se_prop se)) a b) as (b' & E & L & B); [apply (bi_len _ _ (pi_bi _ _ _ _ HP))|apply Hv; simpl; auto|apply Hv; simpl; auto|].
    rewrite E. cbn [bind]. right; right. exists (ABinary a b). eexists _, _, es. split; [reflexivity|].
    split; [|split; [auto|split; [auto|split; [auto|split; [auto|auto]]]]].
    eapply (SI_input K) with (cl := [a; b]); eauto.
    + apply (PI_add_bin0 n es (se_prop se) a b); auto; try (apply Hv; simpl; auto). rewrite Hq. intros ? _ [].
    + cbn. auto.
    + exists []. rewrite app_nil_r. split; [reflexivity|]. intros s [].
    + intros l El; discriminate.
    + discriminate.
    + apply (s_dup _ _ _ _ _ _ _ _ H).
  - destruct (LR_add _ _ (pi_lr _ _ _ _ HP) lh_new_input (a :: b :: c :: r)) as [(a' & E & HLR)|[E HF]].
    { apply lh_ok_new_input. }
    { apply Forall_forall. intros x Hx. eapply clear_lit; [apply HP|]; auto. }
    { discriminate. }
    2:{ rewrite E. cbn [bind]. left. split; [reflexivity|exact HF]. }
    rewrite E. cbn [bind]. set (c0 := length (a_buffer (p_long (se_prop se)))) in *.
    destruct (watch_clause_ok n (p_watches (se_prop se)) c0 a b) as (w' & E1 & A1 & A2 & A3);
      [apply HP|apply (pi_wl _ _ _ _ HP)|apply Hv; simpl; auto|apply Hv; simpl; auto|].
    rewrite E1. cbn [bind]. right; right. exists (ALong c0). eexists _, _, (es ++ [(c0, lh_new_input, a :: b :: c :: r)]). split; [reflexivity|].
    assert (Hfr : forall e, In e es -> le_ref e <> c0) by (intros e He; apply (LR_fresh _ _ (pi_lr _ _ _ _ HP)); auto).
    split; [|split; [auto|split; [auto|split; [auto|split; [auto|auto]]]]].
    eapply (SI_input K) with (cl := a :: b :: c :: r); eauto.
    + apply PI_add_long0; auto; [|discriminate]. rewrite Hq. intros ? _ [].
    + cbn. split; auto. exists c0. auto.
    + exists []. rewrite app_nil_r. split; [reflexivity|]. intros s [].
    + intros l El; discriminate.
    + discriminate.
    + intros c1 h1 l1 Hi Hl. apply in_app_or in Hi as [Hi|[Hi|[]]]; [eapply Hun; eauto|]. inversion Hi; subst. reflexivity.
    + apply (s_dup _ _ _ _ _ _ _ _ H).
Qed.

Lemma add_ok dbg n F s cl : PSI dbg n F s -> valid_clause cl ->
  (solver_add_clause dbg s cl = Panic PFull /\ (afull (p_long (se_prop (so_se s))) \/ (HEADER_MASK < N.of_nat (length cl))%N)) \/
  (dbg = true /\ exists l, cl = [l] /\ In [l] F /\ solver_add_clause dbg s cl = Panic PDebug) \/
  exists s', solver_add_clause dbg s cl = Ret s' /\ PSI dbg (Nat.max n (clause_var_count cl)) (F ++ [cl]) s' /\
    cx_proof (so_ctx s') = cx_proof (so_ctx s).
Proof.
  intros [(es & H) Hq Hd Hu Hus Hsc [Hcf Hrs]] Hvc. unfold solver_add_clause. unfold SOI in H.
  set (m := Nat.max n (clause_var_count cl)).
  assert (A : exists cx1 se1, (if st_vars (cx_stats (so_ctx s)) <? clause_var_count cl
     then let* se := search_resize (so_se s) (clause_var_count cl) in Ret (cx_set_vars (so_ctx s) (clause_var_count cl), se)
     else Ret (so_ctx s, so_se s)) = Ret (cx1, se1) /\ SI (Kof dbg s) m F [] [] es cx1 se1 /\
     t_propagated (p_trail (se_prop se1)) = 0 /\ t_decisions (p_trail (se_prop se1)) = t_decisions (p_trail (se_prop (so_se s))) /\
     se_ss se1 = se_ss (so_se s) /\ p_unsat (se_prop se1) = p_unsat (se_prop (so_se s)) /\ p_long (se_prop se1) = p_long (se_prop (so_se s)) /\
     st_conflicts (cx_stats cx1) = 0 /\ st_restarts (cx_stats cx1) = 0 /\ cx_proof cx1 = cx_proof (so_ctx s)).
  { rewrite (sti_vars _ _ _ _ _ (s_st _ _ _ _ _ _ _ _ H)). destruct (Nat.ltb_spec n (clause_var_count cl)) as [G|G].
    - destruct (SI_resize _ n (clause_var_count cl) _ _ _ _ _ _ H) as (se1 & E & H1 & Ep); [lia|apply clause_vars_valid; auto|].
      rewrite E. cbn [bind]. exists (cx_set_vars (so_ctx s) (clause_var_count cl)), se1. split; auto.
      replace m with (clause_var_count cl) by lia. rewrite Ep. auto 15.
    - exists (so_ctx s), (so_se s). replace m with n by lia. auto 15. }
  destruct A as (cx1 & se1 & E1 & H1 & Q1 & D1 & S1 & U1 & A1 & C1 & R1 & P1). rewrite E1. cbn [bind].
  destruct (verbatim_ok dbg m F es cx1 se1 cl) as [[E HF]|[(Hd' & l & Hl & Hf & E)|(a & cx' & p' & es' & E & H2 & Q2 & D2 & U2 & X2 & Hcx)]].
  { rewrite S1. exact H1. } { exact Q1. } { rewrite D1. exact Hd. } { rewrite S1. exact Hu. } { rewrite U1. exact Hus. }
  { intros x Hx. pose proof (clause_vars_lt _ _ Hx). lia. }
  - left. rewrite E. split; [reflexivity|]. rewrite A1 in HF. exact HF.
  - right; left. split; auto. exists l. split; auto. split; auto. rewrite E. reflexivity.
  - right; right. rewrite E. cbn [bind]. eexists. split; [reflexivity|]. split; [|rewrite Hcx; auto].
    constructor; cbn [so_state so_ctx sta_search sta_schedule se_prop]; auto.
    + exists es'. exact H2.
    + rewrite Hcx. cbn [cx_with cx_stats]. rewrite st_add_conflicts, st_add_restarts. auto.
Qed.

Definition cnf_vars (F : list (list N)) : nat := fold_left (fun n c => Nat.max n (clause_var_count c)) F 0.
Lemma cnf_vars_snoc F c : cnf_vars (F ++ [c]) = Nat.max (cnf_vars F) (clause_var_count c).
Proof. unfold cnf_vars. rewrite fold_left_app. reflexivity. Qed.

Lemma clause_vars_wit c : clause_var_count c = 0 \/ exists x, In x c /\ clause_var_count c = S (vidx x).
Proof.
  induction c as [|a r IH]; cbn [clause_var_count fold_right]; auto. right. fold (clause_var_count r).
  destruct (Nat.max_dec (vidx a + 1) (clause_var_count r)) as [E|E].
  - exists a. split; [left; auto|]. unfold clause_var_count in *. lia.
  - destruct IH as [IH|(x & Hx & IH)]; [unfold clause_var_count in *; lia|]. exists x. split; [right; auto|]. unfold clause_var_count in *. lia.
Qed.
Lemma cnf_vars_wit F : cnf_vars F = 0 \/ exists c x, In c F /\ In x c /\ cnf_vars F = S (vidx x).
Proof.
  induction F as [|c F IH] using rev_ind; [left; reflexivity|]. rewrite cnf_vars_snoc.
  destruct (Nat.max_dec (cnf_vars F) (clause_var_count c)) as [E|E]; rewrite E.
  - destruct IH as [IH|(c' & x & A & B & IH)]; [left; auto|right]. exists c', x. split; [apply in_or_app; auto|auto].
  - destruct (clause_vars_wit c) as [G|(x & Hx & G)]; [auto|right]. exists c, x. split; [apply in_or_app; right; left; auto|auto].
Qed.

(** Histories of add_clause calls. *)
Lemma adds_ok dbg s F : forall F0 n, PSI dbg n F0 s -> valid_cnf F -> n = cnf_vars F0 ->
  add_clauses dbg s F = Panic PFull \/
  (dbg = true /\ (exists F1 l F2, F = F1 ++ [l] :: F2 /\ In [l] (F0 ++ F1)) /\ add_clauses dbg s F = Panic PDebug) \/
  exists s', add_clauses dbg s F = Ret s' /\ PSI dbg (cnf_vars (F0 ++ F)) (F0 ++ F) s' /\ cx_proof (so_ctx s') = cx_proof (so_ctx s).
Proof.
  revert s. induction F as [|c F IH]; intros s F0 n H HV Hn; unfold add_clauses; cbn [foldM].
  - right; right. exists s. rewrite app_nil_r. subst n. auto.
  - destruct (add_ok dbg n F0 s c H) as [[E _]|[(Hd & l & Hl & Hf & E)|(s' & E & H' & P)]]; [apply HV; left; auto|..]; rewrite E; cbn [bind].
    + auto.
    + right; left. split; auto. split; auto. exists [], l, F. subst c. rewrite app_nil_r. auto.
    + destruct (IH s' (F0 ++ [c]) _ H') as [E2|[(Hd & (F1 & l & F2 & Ef & Hi) & E2)|(s2 & E2 & H2 & P2)]].
      * intros c' Hc'. apply HV. right; auto.
      * rewrite cnf_vars_snoc. lia.
      * left. exact E2.
      * right; left. split; auto. split; [|exact E2]. exists (c :: F1), l, F2. subst F. split; auto. rewrite <- app_assoc in Hi. exact Hi.
      * right; right. exists s2. rewrite <- app_assoc in H2. split; [exact E2|]. split; [exact H2|congruence].
Qed.

(** ** A clause added to a state of the search *)
Lemma late_ok dbg K n F L steps es cx se cl : SI K n F L steps es cx se -> (forall x, In x cl -> vidx x < n) ->
  match cl with
  | [] => True
  | [_] => False
  | a :: b :: _ => ~ In (neg a) (slits (se_ss se)) /\ ~ In (neg b) (slits (se_ss se))
  end ->
  (add_clause_verbatim dbg cx (se_prop se) lh_new_input cl = Panic PFull /\ (afull (p_long (se_prop se)) \/ (HEADER_MASK < N.of_nat (length cl))%N)) \/
  exists a p' es', add_clause_verbatim dbg cx (se_prop se) lh_new_input cl = Ret (a, cx_with cx (st_add (cx_stats cx) lh_new_input cl), p') /\
    SI K n (F ++ [cl]) L steps es' (cx_with cx (st_add (cx_stats cx) lh_new_input cl)) (se_with se p').
Proof.
  intros H Hv Hw. pose proof (s_pi _ _ _ _ _ _ _ _ H) as HP. pose proof (s_db _ _ _ _ _ _ _ _ H) as HD.
  assert (Hun := s_un _ _ _ _ _ _ _ _ H).
  assert (Hus : forall c, p_unsat (se_prop se) = true -> refuted (F ++ [c]) steps).
  { intros c U. apply refuted_mono, (s_us _ _ _ _ _ _ _ _ H U). }
  assert (NF : forall a b, ~ In (neg a) (slits (se_ss se)) -> ~ In (neg b) (slits (se_ss se)) -> forall x, x = a \/ x = b ->
    ~ In (neg x) (slits (firstn (t_propagated (p_trail (se_prop se))) (se_ss se)))).
  { intros a b Ha Hb x [->| ->] Hi; apply in_slits_firstn in Hi; auto. }
  assert (Ext : forall p' : prop, t_steps (p_trail p') = se_ss se -> exists ext, t_steps (p_trail p') = se_ss se ++ ext /\ (forall s, In s ext -> s_reason s = RUnit -> cl = [s_lit s])).
  { intros p' E. exists []. rewrite app_nil_r. split; auto. intros s []. }
  destruct cl as [|a [|b [|c r]]]; cbn [add_clause_verbatim]; try contradiction.
  - right. exists AEmpty, (p_set_unsat (se_prop se) true), es. cbn [st_add].
    assert (Ecx : cx_with cx (cx_stats cx) = cx) by (destruct cx; reflexivity).
    split; [rewrite Ecx; reflexivity|].
    apply (SI_input_gen K K n F L steps es cx se []); auto.
    + apply PI_unsat; auto.
    + cbn. auto.
    + intros _. exists steps, [], L. rewrite app_nil_r. split; auto. split; [apply drat_run_mono, H|].
      exists []. split; [apply in_or_app; right; apply in_or_app; right; left; auto|]. intros x [].
    + apply (s_dup _ _ _ _ _ _ _ _ H).
  - destruct Hw as [Ha Hb].
    destruct (bin_add_ok n (p_binary (se_prop se)) a b) as (b' & E & Lb & B); [apply (bi_len _ _ (pi_bi _ _ _ _ HP))|apply Hv; simpl; auto|apply Hv; simpl; auto|].
    rewrite E. cbn [bind]. right. exists (ABinary a b). eexists _, es. split; [reflexivity|].
    eapply (SI_input_gen K) with (cl := [a; b]); eauto.
    + apply (PI_add_bin0 n es (se_prop se) a b); auto; [apply NF; auto|apply Hv; simpl; auto|apply Hv; simpl; auto].
    + cbn. auto.
    + intros l El; discriminate.
    + discriminate.
    + apply (s_dup _ _ _ _ _ _ _ _ H).
  - destruct Hw as [Ha Hb].
    destruct (LR_add _ _ (pi_lr _ _ _ _ HP) lh_new_input (a :: b :: c :: r)) as [(a' & E & HLR)|[E HF]].
    { apply lh_ok_new_input. }
    { apply Forall_forall. intros x Hx. eapply clear_lit; [apply HP|]; auto. }
    { discriminate. }
    2:{ rewrite E. cbn [bind]. left. split; [reflexivity|exact HF]. }
    rewrite E. cbn [bind]. set (c0 := length (a_buffer (p_long (se_prop se)))) in *.
    destruct (watch_clause_ok n (p_watches (se_prop se)) c0 a b) as (w' & E1 & A1 & A2 & A3);
      [apply HP|apply (pi_wl _ _ _ _ HP)|apply Hv; simpl; auto|apply Hv; simpl; auto|].
    rewrite E1. cbn [bind]. right. exists (ALong c0). eexists _, (es ++ [(c0, lh_new_input, a :: b :: c :: r)]). split; [reflexivity|].
    assert (Hfr : forall e, In e es -> le_ref e <> c0) by (intros e He; apply (LR_fresh _ _ (pi_lr _ _ _ _ HP)); auto).
    eapply (SI_input_gen K) with (cl := a :: b :: c :: r); eauto.
    + apply PI_add_long0; auto; [apply NF; auto|discriminate].
    + cbn. split; auto. exists c0. auto.
    + intros l El; discriminate.
    + discriminate.
    + intros c1 h1 l1 Hi Hl. apply in_app_or in Hi as [Hi|[Hi|[]]]; [eapply Hun; eauto|]. inversion Hi; subst. reflexivity.
    + apply (s_dup _ _ _ _ _ _ _ _ H).
Qed.
