(** The invariant of the whole solver and its preservation by search steps. *)
From Coq Require Import NArith List Bool Arith Lia Permutation Sorted ZifyN ZifyNat ZifyBool.
From Verif Require Import Model_Base Model_Lit Model_PartialAssignment Model_Header Model_Arena Model_Prop
  Model_Heap Model_Vsids Model_Analysis Model_Luby Model_Solver Spec Drivers_Arena Proof_Base Proof_PA Proof_Lit Proof_Header Proof_Arena
  Proof_ArenaHist Proof_Long Proof_Trail Proof_Heap Proof_Backtrack Proof_Inv Proof_Propagate Proof_PropOps Proof_Gc Proof_Glue
  Proof_Analysis Proof_Minimize Proof_Size Proof_Learn Proof_DB Proof_Reduce.
Import ListNotations.

(** ** Decision variables *)
Lemma vidx_from_var v b : vidx (lit_from_var (N.of_nat v) b) = v.
Proof. rewrite lit_from_var_mk. change (vidx ?l) with (N.to_nat (lit_var l)). rewrite lit_var_mk. lia. Qed.

Lemma is_assigned_var n vals ls v : VR n vals ls -> v < n ->
  exists b, pa_is_assigned vals (N.of_nat v) = Ret b /\ (b = true <-> vassigned ls v).
Proof.
  intros H Hv. set (l := lit_from_var (N.of_nat v) true). assert (El : vidx l = v) by apply vidx_from_var.
  assert (E2 : lit_var l = N.of_nat v) by (unfold l; rewrite lit_from_var_mk, lit_var_mk; auto).
  rewrite <- E2. rewrite (VR_assigned n vals ls l H) by lia. eexists. split; [reflexivity|].
  rewrite <- El, vassigned_lit, orb_true_iff, !inb_true. tauto.
Qed.

Lemma pop_loop_ok n vals ls : VR n vals ls -> forall fuel h, HS h -> length (h_values h) = n -> length (h_heap h) < fuel ->
  exists o h', pop_loop fuel h vals = Ret (o, h') /\ HS h' /\ h_values h' = h_values h /\ (HO h -> HO h') /\
    (forall v, In v (h_heap h') -> In v (h_heap h)) /\
    (forall v, In v (h_heap h) -> In v (h_heap h') \/ vassigned ls v \/ o = Some v) /\
    match o with
    | Some v => In v (h_heap h) /\ v < n /\ ~ vassigned ls v /\
        (HO h -> forall w, In w (h_heap h) -> ~ vassigned ls w -> (nth w (h_values h) 0 <= nth v (h_values h) 0)%N)
    | None => forall v, In v (h_heap h) -> vassigned ls v
    end.
Proof.
  intros HV. induction fuel as [|f IH]; intros h HS0 Hl Hf; [lia|]. cbn [pop_loop].
  pose proof (pop_max_ok h HS0) as P. destruct (h_heap h) as [|i r] eqn:Eh.
  - rewrite P. cbn [bind]. exists None, h. rewrite Eh. split; auto. split; auto. split; auto. split; auto. split; auto. split; auto. intros v [].
  - destruct P as (h1 & E1 & (H1 & V1 & M1) & O1). rewrite Eh in M1. rewrite E1. cbn [bind].
    assert (Hi : i < n). { rewrite <- Hl. apply (hs_in_lt h i HS0). rewrite Eh. left; auto. }
    destruct (is_assigned_var n vals ls i HV Hi) as (b & Eb & Hb). rewrite Eb. cbn [bind].
    destruct b; cbn [negb].
    + assert (Ai : vassigned ls i) by (apply Hb; auto).
      assert (ND : NoDup (h_heap h)) by (apply hs_nodup; auto).
      destruct (IH h1 H1) as (o & h' & E & A & B & C & D & E2 & G).
      { congruence. }
      { assert (length (h_heap h1) <= length r); [|rewrite ?Eh in *; cbn [length] in Hf; lia].
        apply NoDup_incl_length; [apply hs_nodup; auto|]. intros j Hj. apply M1 in Hj as [[->|Hj] N]; [contradiction|auto]. }
      exists o, h'. split; auto. split; auto. split; [congruence|]. split; [intro Ho; apply C; apply O1; auto|].
      split; [intros v Hv; apply D, M1 in Hv; tauto|].
      split.
      * intros v Hv. destruct (Nat.eq_dec v i) as [->|N]; auto. apply E2. apply M1. auto.
      * destruct o as [v|].
        -- destruct G as (G1 & G2 & G3 & G4). split; [apply M1 in G1; tauto|]. split; auto. split; auto. intros Ho w Hw Nw. rewrite V1 in G4. apply G4; auto; [apply O1; auto|].
           apply M1. split; auto. intros ->. contradiction.
        -- intros v Hv. destruct (Nat.eq_dec v i) as [->|N]; auto. apply G. apply M1. auto.
    + exists (Some i), h1. split; auto. split; auto. split; auto. split; [intro Ho; apply O1; auto|]. split; [intros v Hv; apply M1 in Hv; tauto|].
      split; [intros v Hv; destruct (Nat.eq_dec v i) as [->|N]; auto; left; apply M1; auto|].
      split; [left; auto|]. split; auto. split; [intro X; apply Hb in X; discriminate|]. intros Ho w Hw _. apply O1; auto.
Qed.

Lemma pop_decision_ok n vals ls vs ph : VR n vals ls -> CB n (mkCb vs ph) -> cover n (mkCb vs ph) ls ->
  exists o vs', pop_decision_var vs vals = Ret (o, vs') /\ CB n (mkCb vs' ph) /\ vs_increment vs' = vs_increment vs /\
    h_values (vs_activity vs') = h_values (vs_activity vs) /\ (cb_ho (mkCb vs ph) -> cb_ho (mkCb vs' ph)) /\
    match o with
    | Some v => v < n /\ ~ vassigned ls v /\ (forall l, vidx l = v -> cover n (mkCb vs' ph) (ls ++ [l])) /\
       (cb_ho (mkCb vs ph) -> forall w, w < n -> ~ vassigned ls w ->
          (nth w (h_values (vs_activity vs)) 0 <= nth v (h_values (vs_activity vs)) 0)%N)
    | None => cover n (mkCb vs' ph) ls /\ forall l, vidx l < n -> In l ls \/ In (neg l) ls
    end.
Proof.
  intros HV HC HQ. unfold pop_decision_var.
  destruct (pop_loop_ok n vals ls HV (S (length (h_heap (vs_activity vs)))) (vs_activity vs)) as (o & h' & E & A & B & C & D & E2 & G); try apply HC; auto.
  rewrite E. cbn [bind]. exists o, (mkVsids h' (vs_increment vs)). split; auto.
  assert (HC' : CB n (mkCb (mkVsids h' (vs_increment vs)) ph)).
  { constructor; cbn [cb_vsids vs_activity cb_phases]; auto; [rewrite B; apply (cb_len _ _ HC)|apply (cb_ph _ _ HC)]. }
  split; auto. split; auto. split; auto. split; auto.
  assert (Henq : forall w, w < n -> ~ vassigned ls w -> In w (h_heap (vs_activity vs))).
  { intros w Hw Nw. set (l := lit_from_var (N.of_nat w) true). assert (El : vidx l = w) by apply vidx_from_var.
    rewrite <- El in *. rewrite vassigned_lit in Nw. apply (HQ l); tauto. }
  destruct o as [v|].
  - destruct G as (G1 & G2 & G3 & G4). split; auto. split; auto. split.
    + intros l El l' Hl' N1 N2. unfold enq; cbn [cb_vsids vs_activity].
      rewrite in_app_iff in N1, N2. cbn [In] in N1, N2.
      assert (Nv : ~ vassigned ls (vidx l')) by (rewrite vassigned_lit; tauto).
      destruct (E2 (vidx l') (Henq _ Hl' Nv)) as [X|[X|X]]; auto; [contradiction|]. exfalso.
      inversion X as [Y]. assert (vassigned [l] (vidx l')) as Q by (exists l; split; [congruence|left; auto]).
      apply vassigned_lit in Q. cbn [In] in Q. intuition.
    + intros Ho w Hw Nw. apply G4; auto.
  - split.
    + intros l' Hl' N1 N2. unfold enq; cbn [cb_vsids vs_activity]. assert (Nv : ~ vassigned ls (vidx l')) by (rewrite vassigned_lit; tauto).
      destruct (E2 (vidx l') (Henq _ Hl' Nv)) as [X|[X|X]]; auto; [contradiction|discriminate].
    + intros l Hl. destruct (inb_spec l ls) as [I|I]; auto. destruct (inb_spec (neg l) ls) as [I2|I2]; auto. exfalso.
      assert (Nv : ~ vassigned ls (vidx l)) by (rewrite vassigned_lit; tauto). exact (Nv (G _ (Henq _ Hl Nv))).
Qed.

(** ** Repeated literals on the trail *)
(** All repetitions are among the first [K] steps. *)
Definition dupK (K : nat) (ss : list step) : Prop :=
  forall i j si sj, i < j -> nth_error ss i = Some si -> nth_error ss j = Some sj -> s_lit si = s_lit sj -> j < K.

Lemma dupK_firstn K ss k : dupK K ss -> dupK K (firstn k ss).
Proof.
  intros H i j si sj L A B E. rewrite nth_error_firstn in A, B.
  destruct (i <? k); [|discriminate]. destruct (j <? k); [|discriminate]. eapply H; eauto.
Qed.
Lemma dupK_push K ss s : dupK K ss -> ~ In (s_lit s) (slits ss) -> dupK K (ss ++ [s]).
Proof.
  intros H N i j si sj L A B E. apply nth_snoc in B as [[Lj B]|[-> ->]].
  - apply nth_snoc in A as [[_ A]|[-> ->]]; [|lia]. eapply H; eauto.
  - apply nth_snoc in A as [[_ A]|[-> ->]]; [|lia]. exfalso. apply N. apply in_slits. eauto.
Qed.
Lemma dupK_ext K n t ss ext : TR n t -> t_steps t = ss ++ ext -> (forall s, In s ext -> s_reason s <> RUnit) -> dupK K ss -> dupK K (t_steps t).
Proof.
  intros HT Et He H i j si sj L A B E. destruct (tr_dup _ _ HT i j si sj L A B E) as (_ & _ & R). rewrite Et in A, B.
  destruct (Nat.lt_ge_cases j (length ss)) as [G|G].
  - rewrite nth_error_app1 in B by auto. rewrite nth_error_app1 in A by lia. eapply H; eauto.
  - rewrite nth_error_app2 in B by auto. exfalso. apply (He sj); auto. eapply nth_error_In; eauto.
Qed.
Lemma dupK_map K ss (f : step -> step) : (forall s, s_lit (f s) = s_lit s) -> dupK K ss -> dupK K (map f ss).
Proof.
  intros Hf H i j si sj L A B E. rewrite nth_error_map in A, B.
  destruct (nth_error ss i) as [a|] eqn:Ea; [|discriminate]. destruct (nth_error ss j) as [b|] eqn:Eb; [|discriminate].
  cbn in A, B. inversion A; inversion B; subst. rewrite !Hf in E. eapply H; eauto.
Qed.
Lemma dupK_all ss : dupK (length ss) ss.
Proof. intros i j si sj _ _ B _. apply nth_error_Some. congruence. Qed.
Lemma dupK_0 ss : dupK 0 ss <-> NoDup (slits ss).
Proof.
  split.
  - intro H. apply NoDup_nth_error. intros i j Hi E.
    assert (Hj : j < length (slits ss)). { apply nth_error_Some. rewrite <- E. apply nth_error_Some. auto. }
    rewrite map_length in Hi, Hj. rewrite !nth_error_map in E.
    destruct (nth_error ss i) as [a|] eqn:Ea; [|apply nth_error_None in Ea; lia].
    destruct (nth_error ss j) as [b|] eqn:Eb; [|apply nth_error_None in Eb; lia]. cbn in E.
    destruct (lt_eq_lt_dec i j) as [[L|L]|L]; auto; exfalso.
    + pose proof (H i j a b L Ea Eb ltac:(congruence)). lia.
    + pose proof (H j i b a L Eb Ea ltac:(congruence)). lia.
  - intros H i j si sj L A B E. exfalso. rewrite NoDup_nth_error in H.
    assert (i = j); [|lia]. apply H.
    + rewrite map_length. apply nth_error_Some. congruence.
    + rewrite !nth_error_map, A, B. cbn. congruence.
Qed.

(** Distinct consistent literals have distinct variables. *)
Lemma trail_bound n vals ss K : VR n vals (slits ss) -> dupK K ss -> length ss <= K + n.
Proof.
  intros HV H. set (r := skipn K ss).
  assert (ND : NoDup (slits r)).
  { apply dupK_0. intros i j si sj L A B E. unfold r in A, B. exfalso.
    assert (SK : forall i, nth_error (skipn K ss) i = nth_error ss (K + i)).
    { clear. revert ss. induction K as [|K IH]; intros ss i; [reflexivity|]. destruct ss; simpl; [destruct i; reflexivity|apply IH]. }
    rewrite SK in A, B. pose proof (H (K + i) (K + j) si sj ltac:(lia) A B E). lia. }
  assert (Hr : length (slits r) <= n).
  { pose proof (vidx_cons_nodup n vals (slits ss) HV (slits r) ND) as G.
    assert (I : incl (slits r) (slits ss)).
    { intros x Hx. rewrite <- (firstn_skipn K ss). rewrite map_app. apply in_or_app. right. exact Hx. }
    specialize (G I). rewrite <- (map_length vidx). rewrite <- (seq_length n 0). apply NoDup_incl_length; auto.
    intros v Hv. apply in_map_iff in Hv as (l & <- & Hl). apply in_seq. pose proof (VR_range _ _ _ _ HV (I l Hl)). lia. }
  unfold r in Hr. rewrite map_length, skipn_length in Hr. lia.
Qed.

(** ** The invariant *)
Definition pconv (s : proof_step) : pstep := match s with PAdd c => Add c | PDelete c => Del c end.
Definition logged (cx : ctx) (steps : list pstep) : Prop := forall st, cx_proof cx = Some st -> map pconv st = steps.
Definition binb (c : list N) : bool := Nat.eqb (length c) 2.

Record STI (n : nat) (F L : list (list N)) (es : list lent) (s : stats) : Prop := {
  sti_red : st_redundant s = length (live true es);
  sti_irr : st_irredundant s = length (live false es);
  sti_bin : st_binary s = length (filter binb (L ++ F));
  sti_vars : st_vars s = n }.

(** Some prefix of the proof is refuted by unit propagation. *)
Definition refuted (F : list (list N)) (steps : list pstep) : Prop :=
  exists st1 st2 L1, steps = st1 ++ st2 /\ drat_run F st1 L1 /\ up_conflict (L1 ++ F) [].

Notation se_cb se := (mkCb (se_vsids se) (se_phases se)).
Notation se_ss se := (t_steps (p_trail (se_prop se))).

Record SI (K n : nat) (F L : list (list N)) (steps : list pstep) (es : list lent) (cx : ctx) (se : search) : Prop := {
  s_pi : PI n es (se_prop se);
  s_db : DBR F L es (p_binary (se_prop se)) (se_ss se) (p_unsat (se_prop se));
  s_cb : CB n (se_cb se);
  s_cov : cover n (se_cb se) (slits (se_ss se));
  s_an : AN (se_analysis se);
  s_un : unprot es;
  s_st : STI n F L es (cx_stats cx);
  s_run : drat_run F steps L;
  s_log : logged cx steps;
  s_var : forall c x, In c F -> In x c -> vidx x < n;
  s_us : p_unsat (se_prop se) = true -> refuted F steps;
  s_dup : dupK K (se_ss se);
  s_fix : st_fixed_vars (cx_stats cx) <= K + n }.

Lemma refuted_app F steps st2 : refuted F steps -> refuted F (steps ++ st2).
Proof. intros (a & b & L1 & -> & D & U). exists a, (b ++ st2), L1. rewrite app_assoc. auto. Qed.
Lemma refuted_now F steps L : drat_run F steps L -> up_conflict (L ++ F) [] -> refuted F steps.
Proof. intros D U. exists steps, [], L. rewrite app_nil_r. auto. Qed.
Lemma refuted_unsat F steps : refuted F steps -> ~ satisfiable F.
Proof. intros (a & b & L1 & _ & D & U). eapply drat_refutes; eauto. Qed.

Lemma STI_stats n F L es s s' : STI n F L es s -> st_redundant s' = st_redundant s -> st_irredundant s' = st_irredundant s ->
  st_binary s' = st_binary s -> st_vars s' = st_vars s -> STI n F L es s'.
Proof. intros H A B C D. constructor; [rewrite A|rewrite B|rewrite C|rewrite D]; apply H. Qed.
Lemma STI_live n F L es es' s : STI n F L es s -> (forall r, length (live r es') = length (live r es)) -> STI n F L es' s.
Proof. intros H A. constructor; rewrite ?A; apply H. Qed.

Lemma cover_incl n cb ls ls' : cover n cb ls -> incl ls ls' -> cover n cb ls'.
Proof. intros H I l Hl N1 N2. apply H; auto. Qed.

(** Counters that play no role. *)
Lemma SI_ctx K n F L steps es cx cx' se : SI K n F L steps es cx se -> cx_proof cx' = cx_proof cx ->
  st_redundant (cx_stats cx') = st_redundant (cx_stats cx) -> st_irredundant (cx_stats cx') = st_irredundant (cx_stats cx) ->
  st_binary (cx_stats cx') = st_binary (cx_stats cx) -> st_vars (cx_stats cx') = st_vars (cx_stats cx) ->
  st_fixed_vars (cx_stats cx') <= K + n -> SI K n F L steps es cx' se.
Proof.
  intros H A B C D E G. constructor; try apply H; auto.
  - eapply STI_stats; eauto. apply H.
  - intros st Hst. rewrite A in Hst. eapply s_log; eauto.
Qed.

(** Garbage collection. *)
Lemma gc_slits f t : slits (t_steps (gc_trail f t)) = slits (t_steps t).
Proof. unfold gc_trail; cbn [t_steps]. rewrite map_map. apply map_ext. apply gc_step_lit. Qed.

Lemma SI_gc dbg K n F L steps es cx se : SI K n F L steps es cx se ->
  (prop_collect_garbage dbg (se_prop se) = Panic PFull /\ afull (p_long (se_prop se))) \/
  exists p' es' f, prop_collect_garbage dbg (se_prop se) = Ret p' /\
    SI K n F L steps es' cx (mkSearch p' (se_analysis se) (se_vsids se) (se_phases se)) /\
    t_steps (p_trail p') = map (gc_step f) (se_ss se) /\ t_decisions (p_trail p') = t_decisions (p_trail (se_prop se)) /\
    t_propagated (p_trail p') = t_propagated (p_trail (se_prop se)) /\
    p_unsat p' = p_unsat (se_prop se) /\ p_values p' = p_values (se_prop se).
Proof.
  intro H. unfold prop_collect_garbage. destruct (should_collect_garbage _).
  - destruct (collect_ok n es dbg (se_prop se) (s_pi _ _ _ _ _ _ _ _ H)) as [E|(gaps & a' & es' & w' & E & HP & HG)]; [left; auto|right].
    set (p' := mkProp _ _ _ _ _ _) in *. exists p', es', (gcf' gaps). split; auto. split; [|auto 10].
    constructor; cbn [se_prop se_analysis se_vsids se_phases]; auto; try apply H.
    + eapply DBR_gc; eauto. apply H.
    + unfold p'; cbn [p_trail]. rewrite gc_slits. apply H.
    + intros c h l Hi Hl. destruct (GCE_in_rev _ _ _ _ _ _ HG Hi) as (c0 & _ & Hi0 & _). eapply (s_un _ _ _ _ _ _ _ _ H); eauto.
    + eapply STI_live; [apply H|]. intro r. f_equal. eapply live_GCE; eauto.
    + apply dupK_map; [apply gc_step_lit|apply H].
  - right. exists (se_prop se), es, (fun c => c). split; auto. split; [destruct se; exact H|]. split; [|auto].
    rewrite <- (map_id (se_ss se)) at 1. apply map_ext. intros [l lv r]. unfold gc_step; cbn. destruct r; reflexivity.
Qed.

(** Propagation. *)
Lemma live_ESR_len es es' r : ESR es es' -> length (live r es') = length (live r es).
Proof. intro H. apply (live_ESR es es' r) in H. induction H; simpl; auto. Qed.

Lemma SI_propagate dbg K n F L steps es cx se : SI K n F L steps es cx se ->
  exists cx' p' es' r, propagate dbg cx (se_prop se) = Ret (cx', p', r) /\
    SI K n F L steps es' cx' (mkSearch p' (se_analysis se) (se_vsids se) (se_phases se)) /\
    pext (se_prop se) p' /\ t_propagated (p_trail (se_prop se)) <= t_propagated (p_trail p') /\
    match r with
    | None => t_propagated (p_trail p') = length (t_steps (p_trail p')) /\ cx' = prop_stats cx (se_prop se) p'
    | Some c => conf_ok n es' p' c /\ cx' = cx
    end.
Proof.
  intro H. destruct (propagate_ok n es dbg cx (se_prop se) (s_pi _ _ _ _ _ _ _ _ H)) as (cx' & p' & es' & r & E & HP & HE & HX & HQ & HR).
  exists cx', p', es', r. split; auto. split; [|auto].
  pose proof HX as ((ext & Ex & Hext) & Ed & Eu & Eb). rewrite Forall_forall in Hext.
  assert (Hd : dupK K (t_steps (p_trail p'))).
  { eapply dupK_ext; [apply HP|exact Ex|intros s Hs; apply Hext; auto|apply H]. }
  assert (HSI : SI K n F L steps es' cx (mkSearch p' (se_analysis se) (se_vsids se) (se_phases se))).
  { constructor; cbn [se_prop se_analysis se_vsids se_phases]; auto; try apply H.
    - rewrite Ex, Eb, Eu. apply DBR_ext; [|intros s Hs; apply Hext; auto]. eapply DBR_ESR; eauto. apply H.
    - eapply cover_incl; [apply H|]. intros l Hl. eapply pext_in; eauto.
    - intros c h l Hi Hl. destruct (ESR_in_rev _ _ _ _ _ HE Hi) as (h0 & l0 & Hi0 & P & (_ & Hp)). rewrite Hp.
      eapply (s_un _ _ _ _ _ _ _ _ H); eauto. intros ->. apply Permutation_nil in P. contradiction.
    - eapply STI_live; [apply H|]. intro r0. eapply live_ESR_len; eauto.
    - rewrite Eu. apply H. }
  destruct r as [c|]; [destruct HR as [_ ->]; auto|]. destruct HR as [_ ->].
  eapply SI_ctx; [exact HSI|..]; try reflexivity.
  unfold prop_stats, cx_with; cbn [cx_stats st_fixed_vars]. destruct (Nat.eqb_spec (decision_level (p_trail p')) 0) as [G|G]; [|apply H].
  unfold fixed_var_count. rewrite (tr_dl n) in G by apply HP. rewrite (tr_hd _ _ (pi_tr _ _ _ _ HP)).
  destruct (tl (t_decisions (p_trail p'))) eqn:Et; [|discriminate]. cbn [nth_error].
  eapply trail_bound; eauto. apply HP.
Qed.

(** Decisions. *)
Lemma SI_decide dbg K n F L steps es cx se vs' v : SI K n F L steps es cx se ->
  t_propagated (p_trail (se_prop se)) = length (se_ss se) ->
  v < n -> ~ vassigned (slits (se_ss se)) v -> CB n (mkCb vs' (se_phases se)) ->
  (forall l, vidx l = v -> cover n (mkCb vs' (se_phases se)) (slits (se_ss se) ++ [l])) ->
  exists l p', decide_phase (se_phases se) v = Ret l /\ l = lit_from_var (N.of_nat v) (nth v (se_phases se) false) /\ vidx l = v /\
    assign_decision dbg (se_prop se) l = Ret p' /\
    SI K n F L steps es cx (mkSearch p' (se_analysis se) vs' (se_phases se)) /\
    t_steps (p_trail p') = se_ss se ++ [mkStep l (S (decision_level (p_trail (se_prop se)))) RDecision] /\
    p_unsat p' = p_unsat (se_prop se).
Proof.
  intros H HQ Hv Nv HC Hcov. pose proof (s_pi _ _ _ _ _ _ _ _ H) as HP. unfold decide_phase. rewrite (vget_nth false) by (pose proof (cb_ph _ _ HC) as Q; cbn [cb_phases] in Q; lia). cbn [bind].
  set (l := lit_from_var _ _). assert (El : vidx l = v) by apply vidx_from_var.
  rewrite <- El, vassigned_lit in Nv.
  destruct (assign_decision_ok n dbg (se_prop se) l) as (v' & E & HV); [apply HP|apply HP|rewrite El; auto|tauto|tauto|].
  exists l. eexists. split; [reflexivity|]. split; auto. split; auto. split; [exact E|]. split; [|auto].
  constructor; cbn [se_prop se_analysis se_vsids se_phases]; auto; try apply H.
  - apply PI_decide; auto; try tauto. rewrite El; auto.
  - cbn [p_set_vt p_trail p_binary p_unsat t_decide t_steps]. apply DBR_ext; [apply H|]. intros s [<-|[]]. discriminate.
  - cbn [p_set_vt p_trail t_decide t_steps]. rewrite map_app. apply Hcov. auto.
  - cbn [p_set_vt p_trail t_decide t_steps]. apply dupK_push; [apply H|]. cbn [s_lit]. tauto.
Qed.

(** Conflict analysis. *)
Lemma binb_live_add n F L es s h cl b es1 b' : STI n F L es s -> db_add h cl es b es1 b' -> lh_redundant h = true ->
  STI n F (L ++ [cl]) es1 (st_add s h cl).
Proof.
  intros H HA Hr.
  assert (Eb : length (filter binb ((L ++ [cl]) ++ F)) = length (filter binb (L ++ F)) + (if binb cl then 1 else 0)).
  { rewrite !filter_app, !app_length. cbn [filter]. destruct (binb cl); cbn [length]; lia. }
  constructor; rewrite ?Eb, ?(live_add _ _ _ _ _ _ _ HA), ?app_length, ?Hr.
  all: destruct cl as [|x [|y [|z cl]]]; cbn [st_add longb binb length Nat.leb Nat.eqb andb Bool.eqb].
  all: rewrite ?Hr; cbn [st_redundant st_irredundant st_binary st_vars length].
  all: pose proof (sti_red _ _ _ _ _ H); pose proof (sti_irr _ _ _ _ _ H); pose proof (sti_bin _ _ _ _ _ H); pose proof (sti_vars _ _ _ _ _ H); lia.
Qed.

Lemma st_add_conflicts s h cl : st_conflicts (st_add s h cl) = st_conflicts s.
Proof. unfold st_add. destruct cl as [|? [|? [|]]]; auto. destruct (lh_redundant h); auto. Qed.
Lemma st_add_restarts s h cl : st_restarts (st_add s h cl) = st_restarts s.
Proof. unfold st_add. destruct cl as [|? [|? [|]]]; auto. destruct (lh_redundant h); auto. Qed.

Lemma SI_analyze_nd dbg K n F L steps es cx se c : SI K n F L steps es cx se -> conf_ok n es (se_prop se) c ->
  1 <= decision_level (p_trail (se_prop se)) ->
  (analyze_conflict dbg cx (se_analysis se) (se_prop se) c (se_cb se) = Panic PFull /\ afull (p_long (se_prop se))) \/
  exists cx' an' p' cb' es' cl level target r a,
    analyze_conflict dbg cx (se_analysis se) (se_prop se) c (se_cb se) = Ret (cx', an', p', cb') /\
    SI K n F (L ++ [cl]) (steps ++ [Add cl]) es' cx' (mkSearch p' an' (cb_vsids cb') (cb_phases cb')) /\
    level < decision_level (p_trail (se_prop se)) /\ nth_error (tl (t_decisions (p_trail (se_prop se)))) level = Some target /\
    t_steps (p_trail p') = firstn target (se_ss se) ++ [mkStep a level r] /\
    p_unsat p' = p_unsat (se_prop se) /\
    (exists h, cx' = mkCtx (st_add (cx_stats cx) h cl) (cx_proof (cx_log cx (PAdd cl)))) /\
    cb_phases cb' = save_phases (se_phases se) (slits (skipn target (se_ss se))) /\
    NoDup cl /\ forall x, In x cl -> In (neg x) (slits (se_ss se)).
Proof.
  intros H Hc Hd.
  destruct (analyze_ok n es (se_prop se) dbg cx (se_analysis se) c (se_cb se)) as (cl0 & Ecl & [E|R]); auto; try apply H.
  right. destruct R as (cx' & an' & p' & cb' & es1 & es' & h & a & rest & r & level & target & E & Z).
  exists cx', an', p', cb', es', (a :: rest), level, target, r, a. split; auto.
  destruct (conf_stored _ _ _ _ Hc) as (cl0' & Ecl' & Hst). rewrite Ecl in Ecl'. inversion Ecl'; subst cl0'. clear Ecl'.
  pose proof (s_pi _ _ _ _ _ _ _ _ H) as HP. pose proof (pi_tr _ _ _ _ HP) as HT.
  assert (HDB1 : DBR F L es1 (p_binary (se_prop se)) (se_ss se) (p_unsat (se_prop se))).
  { eapply DBR_live; [|apply H]. intro r0. apply live_ESH. apply Z. }
  assert (Ess := az_ss _ _ _ _ _ _ _ _ _ _ _ _ _ _ _ _ _ _ Z).
  split; [|split; [apply Z|split; [apply Z|split; [auto|split; [apply Z|split; [|split; [apply Z|split; [apply Z|]]]]]]]].
  2:{ exists h. apply Z. }
  2:{ intros x [<-|Hx]; [apply Z|]. eapply in_slits_firstn, (az_f _ _ _ _ _ _ _ _ _ _ _ _ _ _ _ _ _ _ Z); eauto. }
  assert (Hr := az_red _ _ _ _ _ _ _ _ _ _ _ _ _ _ _ _ _ _ Z).
  constructor; cbn [se_prop se_analysis se_vsids se_phases]; auto; try apply Z; try (apply H; fail).
  - assert (HH : DBR (Ladd (negb (lh_redundant h)) F (a :: rest)) (Ladd (lh_redundant h) L (a :: rest)) es' (p_binary p') (t_steps (p_trail p')) (p_unsat p')).
    { eapply DBR_add; [exact HDB1|apply Z|..].
      - intro U. rewrite (az_us _ _ _ _ _ _ _ _ _ _ _ _ _ _ _ _ _ _ Z). auto.
      - intros s Hs R. rewrite Ess in Hs. apply in_app_or in Hs as [Hs|[<-|[]]]; [left; eapply in_firstn; eauto|right].
        cbn [s_reason s_lit] in *. pose proof (az_rs _ _ _ _ _ _ _ _ _ _ _ _ _ _ _ _ _ _ Z) as RO. subst r. destruct rest as [|x [|y rest]]; cbn [reason_of] in RO; auto; [discriminate|].
        destruct RO as (? & ? & RO & _). discriminate.
      - intros s Hs Hl. exists s. split; auto. rewrite Ess. apply in_or_app. left. eapply zero_firstn; eauto. apply Z.
      - intros l El. inversion El; subst l rest. right. exists (mkStep a level r). split; [rewrite Ess; apply in_or_app; right; left; auto|].
        split; auto. cbn [s_level]. exact (az_b _ _ _ _ _ _ _ _ _ _ _ _ _ _ _ _ _ _ Z).
      - discriminate. }
    rewrite Hr in HH. exact HH.
  - destruct cb' as [vs' ph']. apply Z.
  - rewrite Ess, map_app. eapply cover_incl; [|intros x Hx; apply in_or_app; left; exact Hx].
    eapply cover_back; [exact HT|apply Z|apply H|]. destruct cb' as [vs' ph']. apply Z.
  - pose proof (az_un _ _ _ _ _ _ _ _ _ _ _ _ _ _ _ _ _ _ Z (s_un _ _ _ _ _ _ _ _ H)) as U1.
    pose proof (az_db _ _ _ _ _ _ _ _ _ _ _ _ _ _ _ _ _ _ Z) as A. pose proof (az_prot _ _ _ _ _ _ _ _ _ _ _ _ _ _ _ _ _ _ Z) as Hp.
    destruct rest as [|x [|y rest]]; cbn [db_add] in A; [destruct A as [-> _]; auto|destruct A as [-> _]; auto|].
    destruct A as (_ & c0 & -> & _). intros c1 h1 l1 Hi Hl. apply in_app_or in Hi as [Hi|[Hi|[]]]; [eapply U1; eauto|]. inversion Hi; subst. auto.
  - rewrite (az_cx _ _ _ _ _ _ _ _ _ _ _ _ _ _ _ _ _ _ Z). cbn [cx_stats]. eapply binb_live_add; [|apply Z|auto].
    eapply STI_live; [apply H|]. intro r0. f_equal. apply live_ESH. apply Z.
  - apply dr_add; [apply H|]. eapply learned_RUP; [exact HP|apply H|exact Hst|apply Z].
  - intros st Hst'. rewrite (az_cx _ _ _ _ _ _ _ _ _ _ _ _ _ _ _ _ _ _ Z) in Hst'. cbn [cx_proof cx_log] in Hst'.
    destruct (cx_proof cx) as [st0|] eqn:Ep; [|discriminate]. inversion Hst'; subst. rewrite map_app. cbn [map pconv]. f_equal.
    eapply s_log; eauto.
  - intro U. apply refuted_app. rewrite (az_us _ _ _ _ _ _ _ _ _ _ _ _ _ _ _ _ _ _ Z) in U. eapply s_us; eauto.
  - rewrite Ess. apply dupK_push; [apply dupK_firstn; apply H|]. cbn [s_lit]. intro Q. apply in_slits_firstn in Q.
    eapply VR_cons; [apply HP|exact Q|]. apply Z.
  - rewrite (az_cx _ _ _ _ _ _ _ _ _ _ _ _ _ _ _ _ _ _ Z). cbn [cx_stats].
    replace (st_fixed_vars _) with (st_fixed_vars (cx_stats cx)); [apply H|]. unfold st_add. destruct rest as [|? [|]]; auto. destruct (lh_redundant h); auto.
Qed.

Lemma SI_analyze dbg K n F L steps es cx se c : SI K n F L steps es cx se -> conf_ok n es (se_prop se) c ->
  1 <= decision_level (p_trail (se_prop se)) ->
  (analyze_conflict dbg cx (se_analysis se) (se_prop se) c (se_cb se) = Panic PFull /\ afull (p_long (se_prop se))) \/
  exists cx' an' p' cb' es' cl level target r a,
    analyze_conflict dbg cx (se_analysis se) (se_prop se) c (se_cb se) = Ret (cx', an', p', cb') /\
    SI K n F (L ++ [cl]) (steps ++ [Add cl]) es' cx' (mkSearch p' an' (cb_vsids cb') (cb_phases cb')) /\
    level < decision_level (p_trail (se_prop se)) /\ nth_error (tl (t_decisions (p_trail (se_prop se)))) level = Some target /\
    t_steps (p_trail p') = firstn target (se_ss se) ++ [mkStep a level r] /\
    p_unsat p' = p_unsat (se_prop se) /\
    (exists h, cx' = mkCtx (st_add (cx_stats cx) h cl) (cx_proof (cx_log cx (PAdd cl)))) /\
    cb_phases cb' = save_phases (se_phases se) (slits (skipn target (se_ss se))).
Proof.
  intros H Hc Hd. destruct (SI_analyze_nd dbg _ _ _ _ _ _ _ _ _ H Hc Hd) as [E|(cx' & an' & p' & cb' & es' & cl & level & target & r & a & X)]; [left; auto|right].
  exists cx', an', p', cb', es', cl, level, target, r, a. tauto.
Qed.

(** Restarts. *)
Lemma SI_restart dbg K n F L steps es cx se : SI K n F L steps es cx se ->
  exists cx' se', restart dbg cx se = Ret (cx', se') /\ SI K n F L steps es cx' se' /\
    cx' = bump_restarts cx /\ p_unsat (se_prop se') = p_unsat (se_prop se) /\ p_binary (se_prop se') = p_binary (se_prop se) /\
    exists target, se_ss se' = firstn target (se_ss se) /\ se_phases se' = save_phases (se_phases se) (slits (skipn target (se_ss se))) /\
      decision_level (p_trail (se_prop se')) = 0.
Proof.
  intro H. assert (H1 : SI K n F L steps es (bump_restarts cx) se).
  { eapply SI_ctx; [exact H|..]; try reflexivity. apply H. }
  unfold restart. pose proof (s_pi _ _ _ _ _ _ _ _ H) as HP. destruct (Nat.ltb_spec 0 (decision_level (p_trail (se_prop se)))) as [G|G].
  - destruct (backtrack_ok n dbg (se_prop se) 0 (se_cb se)) as (target & ti & v' & cb' & Et & E & HT & HV & HC & _ & He & _ & _ & Eph & _); try apply H; auto.
    rewrite E. cbn [bind]. eexists _, _. split; [reflexivity|].
    assert (Hss : t_steps (p_trail (p_set_vt (se_prop se) v' (t_back (p_trail (se_prop se)) 0 target ti))) = firstn target (se_ss se)) by reflexivity.
    split; [|split; [auto|split; [auto|split; [auto|exists target; cbn [se_phases se_prop]; split; [auto|split; [auto|]]]]]].
    + constructor; cbn [se_prop se_analysis se_vsids se_phases]; rewrite ?Hss; auto; try apply H1.
      * apply PI_back; auto.
      * eapply DBR_back; eauto. apply H. apply H.
      * destruct cb'; auto.
      * destruct cb'; eapply cover_back; eauto. apply H. apply H.
      * apply dupK_firstn. apply H.
    + change (decision_level (t_back (p_trail (se_prop se)) 0 target ti) = 0). rewrite (tr_dl n _ HT). unfold t_back; cbn [t_decisions].
      rewrite (tr_hd _ _ (pi_tr _ _ _ _ HP)). reflexivity.
  - exists (bump_restarts cx), se. split; auto. split; auto. split; auto. split; auto. split; auto.
    exists (length (se_ss se)). rewrite firstn_all, skipn_all. split; auto. split; auto. lia.
Qed.

(** Reduction. *)
Lemma SI_reduce select le K n F L steps es cx se : select_ok le select -> SI K n F L steps es cx se ->
  exists cx' se' L' es' lls, reduce select cx se = Ret (cx', se') /\
    SI K n F L' (steps ++ map Del lls) es' cx' se' /\
    cx' = del_ctx (bump_reductions cx) lls /\ p_unsat (se_prop se') = p_unsat (se_prop se) /\
    p_trail (se_prop se') = p_trail (se_prop se) /\ se_phases se' = se_phases se /\ (L = [] -> lls = [] /\ L' = []) /\
    exists a' D, se_prop se' = p_set_long (se_prop se) a' /\ reduced n F es (se_prop se) cx cx' es' a' D lls.
Proof.
  intros Hs H. destruct (reduce_ok select le Hs n F es cx se) as (cx' & es' & a' & D & lls & E & R & _).
  { apply H. } { apply H. } { apply (sti_red _ _ _ _ _ (s_st _ _ _ _ _ _ _ _ H)). }
  destruct (rd_db _ _ _ _ _ _ _ _ _ _ R _ L (s_db _ _ _ _ _ _ _ _ H)) as (L' & HD' & HLn & HLf & HS).
  rewrite E. eexists cx', _, L', es', lls. split; [reflexivity|].
  assert (Hcx := rd_cx _ _ _ _ _ _ _ _ _ _ R).
  split; [|split; [auto|split; [auto|split; [auto|split; [auto|split; [|exists a', D; auto]]]]]].
  2:{ intros ->. destruct L'; [|discriminate]. destruct lls; [auto|discriminate]. }
  constructor; cbn [se_prop se_analysis se_vsids se_phases]; auto; try apply R; try (apply H; fail).
  - constructor.
    + rewrite Hcx. cbn [del_ctx cx_stats del_stats st_redundant bump_reductions cx_with]. rewrite (sti_red _ _ _ _ _ (s_st _ _ _ _ _ _ _ _ H)), (rd_len _ _ _ _ _ _ _ _ _ _ R). lia.
    + rewrite Hcx. cbn [del_ctx cx_stats del_stats st_irredundant bump_reductions cx_with]. rewrite (sti_irr _ _ _ _ _ (s_st _ _ _ _ _ _ _ _ H)).
      rewrite (meq_length _ _ (db_irr _ _ _ _ _ _ HD')), (meq_length _ _ (db_irr _ _ _ _ _ _ (s_db _ _ _ _ _ _ _ _ H))). auto.
    + rewrite Hcx. cbn [del_ctx cx_stats del_stats st_binary bump_reductions cx_with]. rewrite (sti_bin _ _ _ _ _ (s_st _ _ _ _ _ _ _ _ H)).
      rewrite !filter_app, HLf; auto. intros c Hc. unfold binb. destruct (Nat.eqb_spec (length c) 2); auto. lia.
    + rewrite Hcx. apply (sti_vars _ _ _ _ _ (s_st _ _ _ _ _ _ _ _ H)).
  - apply HS. apply H.
  - intros st Hst. rewrite Hcx in Hst. cbn [del_ctx cx_proof bump_reductions cx_with] in Hst. destruct (cx_proof cx) eqn:Ep; [|discriminate].
    inversion Hst; subst. rewrite map_app, map_map. f_equal. eapply s_log; eauto.
  - intro U. apply refuted_app. eapply s_us; eauto.
  - rewrite Hcx. apply H.
Qed.
