(** C86: deriving a clause from a conflict takes linear time. *)
From Coq Require Import NArith List Bool Arith Lia.
From Verif Require Import Model_Base Model_Lit Model_PartialAssignment Model_Header Model_Arena Model_Prop
  Model_Heap Model_Vsids Model_Analysis Model_Cost Model_DeriveCost Model_Luby Model_Solver Spec Proof_Base Proof_PA Proof_Lit Proof_Header
  Proof_Long Proof_Trail Proof_Backtrack Proof_Inv Proof_PropOps Proof_Propagate Proof_Gc Proof_Glue Proof_Analysis Proof_Minimize
  Proof_Solver Proof_Search Drivers_Solver Drivers_Search Proof_Visited Proof_Cost Examples_Solver Prop_Prop Prop_Analysis Prop_Cost Prop_HeapCost.
Import ListNotations.

(** ** Counting changes no result *)
Lemma er_glue t ls tmp : erase (compute_glue_n t ls tmp) = compute_glue t ls tmp.
Proof.
  apply er_bind; [apply er_fold; intros; apply er_units|]. intros [g tmp1].
  apply er_bind; [apply er_fold; intros; apply er_units|]. auto.
Qed.
Lemma er_bump t a c tmp : erase (bump_long_clause_n t a c tmp) = bump_long_clause t a c tmp.
Proof.
  apply er_bind; [apply er_units|]. intro ls. apply er_bind; [apply er_units|]. intro h.
  apply er_bind; [apply er_glue|]. intros [g tmp']. apply er_bind; [apply er_units|]. auto.
Qed.
Lemma er_adds t ls st : erase (add_literals_n t ls st) = foldM (add_literal t) ls st.
Proof. apply er_fold. intros. apply er_units. Qed.
Lemma er_uip k : forall p an cb, erase (uip_loop_n k p an cb) = uip_loop k p an cb.
Proof.
  induction k as [|k IH]; intros p an cb; [reflexivity|]. cbn [uip_loop_n uip_loop].
  apply er_bind; [apply er_units|]. intro cur. apply er_bind; [apply er_units|]. intro cs.
  destruct (negb cur); [apply IH|]. apply er_bind; [apply er_units|]. intro s.
  destruct (Nat.ltb 0 _); [|reflexivity]. destruct (Nat.eqb _ 0).
  - apply er_bind; [apply er_fold; intros; apply er_units|]. auto.
  - apply er_bind.
    + destruct (s_reason s); try reflexivity. apply er_bind; [apply er_bump|]. intros [a' g']. reflexivity.
    + intros [p1 an3]. apply er_bind; [apply er_units|]. intro rl. apply er_bind; [apply er_adds|]. intros [an4 cb']. apply IH.
Qed.
Lemma er_derive an p c cb : erase (derive_1uip_clause_n an p c cb) = derive_1uip_clause an p c cb.
Proof.
  apply er_bind.
  - destruct c; [reflexivity|]. apply er_bind; [apply er_bump|]. intros [a' g']. reflexivity.
  - intros [p1 an2]. apply er_bind; [apply er_units|]. intro ls. apply er_bind; [apply er_adds|]. intros [an3 cb'].
    apply er_bind; [apply er_uip|]. intros [[p2 an4] cb'']. destruct (Nat.eqb _ 0); reflexivity.
Qed.

(** ** C86 *)
Theorem counted_derive an p c cb r :
  derive_1uip_clause an p c cb = Ret r <-> exists work, derive_1uip_clause_n an p c cb = Ret (r, work).
Proof. rewrite <- er_derive. apply erase_iff. Qed.

(** ** The bound *)
Lemma fold_units {A S} j (f : S -> A -> res S) l : forall s s' k, foldC (fun s a => units j (f s a)) l s = Ret (s', k) -> k = j * length l.
Proof.
  induction l as [|a r IH]; intros s s' k E; cbn [foldC] in E; [inversion E; cbn; lia|].
  apply bindC_ret in E as (s1 & k1 & k2 & E1 & E2 & ->). apply units_ret in E1 as [_ ->]. apply IH in E2. cbn [length]. lia.
Qed.
Lemma adds_cost t ls : forall an cb an' cb' k, add_literals_n t ls (an, cb) = Ret ((an', cb'), k) ->
  k = length ls /\ length (an_derived an') <= length (an_derived an) + length ls.
Proof.
  intros an cb an' cb' k E. split; [unfold add_literals_n in E; apply fold_units in E; lia|].
  revert an cb k E. unfold add_literals_n. induction ls as [|l r IH]; intros an cb k E; cbn [foldC] in E; [inversion E; cbn; lia|].
  apply bindC_ret in E as ([an1 cb1] & k1 & k2 & E1 & E2 & ->). apply units_ret in E1 as [E1 _]. apply IH in E2. cbn [length].
  assert (Q : length (an_derived an1) <= S (length (an_derived an))); [|lia]. clear E2.
  unfold add_literal in E1. destruct (trail_index t l) as [i| |]; try discriminate. cbn [bind] in E1.
  destruct (vget (t_steps t) i) as [s| |]; try discriminate. cbn [bind] in E1.
  destruct (Nat.eqb (s_level s) 0); [inversion E1; subst; lia|].
  destruct (vget (an_current an) i) as [old| |]; try discriminate. cbn [bind] in E1.
  destruct (vset (an_current an) i true) as [cur| |]; try discriminate. cbn [bind] in E1.
  destruct old; [inversion E1; subst; cbn; lia|]. destruct (cb_var_in_conflict cb l) as [cb2| |]; try discriminate. cbn [bind] in E1.
  destruct (Nat.eqb _ _); inversion E1; subst; cbn [an_set_count an_set_derived an_set_current an_derived]; [lia|]. rewrite app_length. cbn [length]. lia.
Qed.

Section DeriveCost.
Variables (n : nat) (es0 : list lent) (p0 : prop).
Hypothesis HP0 : PI n es0 p0.
Notation t := (p_trail p0).
Notation ss := (t_steps (p_trail p0)).

Lemma bump_cost p es c h l tmp a' g' k : PS n es0 p0 p es -> In (c, h, l) es -> bump_long_clause_n t (p_long p) c tmp = Ret ((a', g'), k) ->
  k = 2 * length l /\ exists es', PS n es0 p0 (p_set_long p a') es'.
Proof.
  intros H Hi E. pose proof (ps_pi _ _ _ _ _ H) as HP. pose proof (pi_lr _ _ _ _ HP) as HL.
  unfold bump_long_clause_n in E. apply bindC_ret in E as (l' & k1 & k2 & E1 & E2 & ->). apply units_ret in E1 as [E1 ->].
  rewrite (LR_lits _ _ HL _ _ _ Hi) in E1. inversion E1; subst l'. clear E1.
  apply bindC_ret in E2 as (h' & k3 & k4 & E3 & E4 & ->). apply units_ret in E3 as [E3 ->].
  rewrite (LR_header _ _ HL _ _ _ Hi) in E3. inversion E3; subst h'. clear E3.
  apply bindC_ret in E4 as ([g tmp'] & k5 & k6 & E5 & E6 & ->). cbv zeta in E6.
  apply bindC_ret in E6 as (a2 & k7 & k8 & E7 & E8 & ->). apply units_ret in E7 as [E7 ->]. inversion E8; subst a2 g' k8. clear E8.
  split.
  - unfold compute_glue_n in E5. apply bindC_ret in E5 as ([g1 t1] & j1 & j2 & F1 & F2 & ->). apply fold_units in F1. subst j1.
    apply bindC_ret in F2 as (t2 & j3 & j4 & F3 & F4 & ->). apply fold_units in F3. inversion F4. lia.
  - set (h2 := lh_set_used (lh_set_glue h (N.of_nat g)) (lh_used (lh_set_glue h (N.of_nat g)) + 1)) in *.
    destruct (LR_ok _ _ HL _ _ _ Hi) as (Hok & _).
    assert (Hok1 : lh_ok (lh_set_glue h (N.of_nat g))) by (apply lh_ok_set_glue; auto).
    assert (Hok2 : lh_ok h2) by (apply lh_ok_set_used; auto).
    destruct (LR_set_header _ _ HL _ _ _ _ Hi Hok2) as (a2 & E & HL'). rewrite E7 in E. inversion E; subst a2.
    assert (HE : ESH es (les_upd c h2 l es)).
    { apply ESH_upd with (h := h); auto; [apply (LR_nodup _ _ HL)|]. unfold h2. rewrite redundant_set_used, redundant_set_glue; auto. }
    eexists. constructor.
    + rewrite (ps_p _ _ _ _ _ H). reflexivity.
    + eapply PI_headers; eauto.
    + eapply ESH_trans; [apply H|]; auto.
    + intros Hu c2 h3 l2 H2 Hne. specialize (ps_un _ _ _ _ _ H Hu) as U. apply les_upd_in in H2 as [[E2 _]|[H2 _]].
      * inversion E2; subst. unfold h2. rewrite protected_set_used, protected_set_glue; auto. eapply U; eauto.
      * eapply U; eauto.
Qed.

(** The number of literals of the reason of a step *)
Definition rsize (s : step) : nat := match reason_lits (p_long p0) (s_reason s) with Ret ls => length ls | _ => 0 end.
Fixpoint rsum (l : list step) : nat := match l with [] => 0 | s :: r => 4 * rsize s + 3 + rsum r end.
Lemma rsum_app l1 l2 : rsum (l1 ++ l2) = rsum l1 + rsum l2.
Proof. induction l1; cbn [app rsum]; lia. Qed.
Lemma rsum_S i s : nth_error ss i = Some s -> rsum (firstn (S i) ss) = rsum (firstn i ss) + 4 * rsize s + 3.
Proof.
  intro E. apply nth_error_split in E as (l1 & l2 & El & <-). rewrite El. rewrite (firstn_app (S _)), (firstn_app (length l1)).
  replace (S (length l1) - length l1) with 1 by lia. rewrite Nat.sub_diag, firstn_all, (firstn_all2 (n := S (length l1))) by lia. cbn [firstn].
  rewrite !rsum_app. cbn [rsum]. lia.
Qed.

(** A reason has the same literals in all states of the derivation. *)
Lemma reason_same p es i s rl : PS n es0 p0 p es -> nth_error ss i = Some s ->
  reason_lits (p_long p) (s_reason s) = Ret rl -> length rl = rsize s.
Proof.
  intros H E Er. unfold rsize. pose proof (pi_ri _ _ _ _ HP0 i s E) as R. destruct (s_reason s) as [| |b|c] eqn:Es.
  - cbn in Er |- *. inversion Er; auto.
  - cbn in Er |- *. inversion Er; auto.
  - cbn in Er |- *. inversion Er; auto.
  - destruct R as (h & r & R1 & R2). destruct (ESH_in _ _ _ _ _ (ps_es _ _ _ _ _ H) R1) as (h' & R3 & _).
    unfold reason_lits in *. rewrite (LR_lits _ _ (pi_lr _ _ _ _ HP0) _ _ _ R1).
    rewrite (LR_lits _ _ (pi_lr _ _ _ _ (ps_pi _ _ _ _ _ H)) _ _ _ R3) in Er. cbn [bind] in *. inversion Er; auto.
Qed.

Lemma uip_cost k : k <= length ss -> forall p es an cb r w, PS n es0 p0 p es ->
  uip_loop_n k p an cb = Ret (r, w) -> w <= rsum (firstn k ss) + length (an_derived an).
Proof.
  induction k as [|k IH]; intros Hk p es an cb r w HS E; cbn [uip_loop_n] in E; [inversion E; cbn; lia|].
  rewrite (PS_trail _ _ _ _ _ HS) in E. destruct (nth_error ss k) as [s|] eqn:Es; [|apply nth_error_None in Es; lia].
  rewrite (rsum_S _ _ Es).
  apply bindC_ret in E as (cur & k1 & k2 & E1 & E2 & ->). apply units_ret in E1 as [_ ->].
  apply bindC_ret in E2 as (cs & k3 & k4 & E3 & E4 & ->). apply units_ret in E3 as [_ ->].
  destruct (negb cur).
  { apply (IH ltac:(lia) p es) in E4; auto. cbn [an_set_current an_derived] in E4. lia. }
  apply bindC_ret in E4 as (s' & k5 & k6 & E5 & E6 & ->). apply units_ret in E5 as [E5 ->].
  rewrite (proj2 (vget_ok _ _ _) Es) in E5. inversion E5; subst s'. clear E5.
  destruct (Nat.ltb 0 _); [|discriminate].
  match type of E6 with (if ?b then _ else _) = _ => destruct b end.
  - apply bindC_ret in E6 as (cs' & k7 & k8 & E7 & E8 & ->). apply fold_units in E7. inversion E8. subst.
    cbn [an_set_count an_set_current an_derived]. lia.
  - apply bindC_ret in E6 as ([p1 an3] & k7 & k8 & E7 & E8 & ->).
    assert (Q : k7 <= 2 * rsize s + 2 /\ an_derived an3 = an_derived an /\ exists es1, PS n es0 p0 p1 es1).
    { destruct (s_reason s) as [| |b|c] eqn:Er; try (inversion E7; subst; split; [lia|]; split; [reflexivity|eauto]; fail).
      apply bindC_ret in E7 as ([a' g'] & j1 & j2 & F1 & F2 & ->). inversion F2; subst.
      pose proof (pi_ri _ _ _ _ (ps_pi _ _ _ _ _ HS) k s) as R. rewrite (PS_trail _ _ _ _ _ HS) in R. specialize (R Es). rewrite Er in R.
      destruct R as (h & rs & R1 & R2). destruct (bump_cost _ _ _ _ _ _ _ _ _ HS R1 F1) as [-> HS1].
      split; [|split; [reflexivity|auto]].
      assert (L : exists rl, reason_lits (p_long p) (s_reason s) = Ret rl /\ length rl = length rs).
      { rewrite Er. unfold reason_lits. rewrite (LR_lits _ _ (pi_lr _ _ _ _ (ps_pi _ _ _ _ _ HS)) _ _ _ R1). cbn [bind]. eexists. split; [reflexivity|]. cbn. auto. }
      destruct L as (rl & L1 & L2). apply (reason_same p es k s rl HS Es) in L1. cbn [length]. lia. }
    destruct Q as (Q1 & Q2 & es1 & HS1).
    apply bindC_ret in E8 as (rl & k9 & k10 & E9 & E10 & ->). apply units_ret in E9 as [E9 ->].
    apply (reason_same _ _ _ _ _ HS1 Es) in E9.
    apply bindC_ret in E10 as ([an4 cb'] & k11 & k12 & E11 & E12 & ->). apply adds_cost in E11 as [-> E11]. rewrite Q2 in E11.
    apply (IH ltac:(lia) p1 es1) in E12; auto. lia.
Qed.

Lemma derive_cost an c cb r cl w : conf_ok n es0 p0 c -> conflict_lits (p_long p0) c = Ret cl ->
  derive_1uip_clause_n an p0 c cb = Ret (r, w) -> w <= rsum ss + 4 * length cl.
Proof.
  intros (cl' & Ecl & Hst & _) Ecl' E. rewrite Ecl in Ecl'. inversion Ecl'; subst cl'.
  unfold derive_1uip_clause_n in E. set (an1 := update_trail_len (an_set_derived an []) t) in *.
  assert (HPS0 : PS n es0 p0 p0 es0). { constructor; auto; [destruct p0; reflexivity|apply ESH_refl]. }
  apply bindC_ret in E as ([p1 an2] & k1 & k2 & E1 & E2 & ->).
  assert (Q : k1 <= 2 * length cl /\ an_derived an2 = [] /\ (exists es1, PS n es0 p0 p1 es1) /\ conflict_lits (p_long p1) c = Ret cl).
  { destruct c as [a b|c]; [inversion E1; subst; split; [lia|]; split; [reflexivity|]; split; eauto|].
    destruct Hst as (h & Hi & Hne). apply bindC_ret in E1 as ([a' g'] & j1 & j2 & F1 & F2 & ->). inversion F2; subst.
    destruct (bump_cost _ _ _ _ _ _ _ _ _ HPS0 Hi F1) as [-> [es1 HS1]]. split; [lia|]. split; [reflexivity|]. split; [eauto|].
    destruct (ESH_in _ _ _ _ _ (ps_es _ _ _ _ _ HS1) Hi) as (h' & Hi' & _).
    apply (LR_lits _ _ (pi_lr _ _ _ _ (ps_pi _ _ _ _ _ HS1)) _ _ _ Hi'). }
  destruct Q as (Q1 & Q2 & (es1 & HS1) & Q3).
  apply bindC_ret in E2 as (ls & k3 & k4 & E3 & E4 & ->). apply units_ret in E3 as [E3 ->]. rewrite Q3 in E3. inversion E3; subst ls.
  apply bindC_ret in E4 as ([an3 cb'] & k5 & k6 & E5 & E6 & ->). apply adds_cost in E5 as [-> E5]. rewrite Q2 in E5. cbn [length] in E5.
  apply bindC_ret in E6 as ([[p2 an4] cb''] & k7 & k8 & E7 & E8 & ->). apply (uip_cost _ (le_n _) _ es1) in E7; auto. rewrite firstn_all in E7.
  destruct (Nat.eqb _ 0); inversion E8. subst. lia.
Qed.
End DeriveCost.

(** The work of deriving the first-UIP clause is linear in the number of steps on the
    trail, the sizes of their reasons and the size of the conflict clause. *)
Theorem derive_linear select dbg F cx se cx1 p1 c :
  select_ok (fun _ _ => True) select -> visited select dbg F cx se ->
  propagate dbg cx (se_prop se) = Ret (cx1, p1, Some c) -> decision_level (p_trail p1) <> 0 ->
  exists r work cl ns, derive_1uip_clause_n (se_analysis se) p1 c (search_cb se) = Ret (r, work) /\
    conflict_lits (p_long p1) c = Ret cl /\ reason_sizes p1 ns /\
    work <= 4 * length cl + 4 * list_sum ns + 3 * length ns.
Proof.
  intros Hs HV E Hd. destruct (conflict_state _ _ _ _ _ _ _ _ Hs HV E) as (es & HP & HA & HC & Hc).
  destruct (derive_ok _ es p1 (se_analysis se) c (search_cb se) HP ltac:(lia) HA HC Hc) as (cl & p3 & es2 & an4 & cb3 & der & u & E2 & Ecl & _).
  apply counted_derive in E2 as (work & E2). destruct (sizes_exist _ _ _ HP) as (ns & N1 & N2).
  exists (p3, an4, cb3), work, cl, ns. split; [auto|]. split; [auto|]. split; [auto|].
  pose proof (derive_cost _ es p1 HP _ _ _ _ _ _ Hc Ecl E2) as B.
  assert (Q : rsum p1 (t_steps (p_trail p1)) = 4 * list_sum ns + 3 * length ns); [|lia].
  assert (Hn : length (t_steps (p_trail p1)) = length ns) by (clear -N1; unfold reason_sizes in N1; induction N1; cbn; auto).
  rewrite N2, <- Hn. clear. induction (t_steps (p_trail p1)) as [|s l IH]; [reflexivity|]. cbn [rsum fold_right length]. fold (rsize p1 s). lia.
Qed.
(** The run of [minimize_linear_example]. *)
Example derive_linear_example :
  let se := sta_search (so_state (at_step min3 2)) in
  match propagate true (so_ctx (at_step min3 2)) (se_prop se) with
  | Ret (_, p1, Some c) => decision_level (p_trail p1) <> 0 /\ reason_sizes p1 [0; 1; 0; 2] /\
      match derive_1uip_clause_n (se_analysis se) p1 c (search_cb se) with
      | Ret ((_, an2, _), work) => an_derived an2 = [2; 1; 7]%N /\ work = 21
      | _ => False
      end
  | _ => False
  end.
Proof.
  vm_compute. split; [discriminate|]. split; [|split; reflexivity]. repeat constructor; eexists; repeat split.
  right. exists 3%N, 1%N. split; [reflexivity|]. eexists. split; [reflexivity|]. left. reflexivity.
Qed.

Print Assumptions counted_derive.
Print Assumptions derive_linear.
