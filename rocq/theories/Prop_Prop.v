(** C15-C18 and C59: unit propagation, conflicts and backtracking, in every state a
    search passes through ([visited], Drivers_Search.v). *)
From Coq Require Import NArith List Bool Arith Lia Permutation Sorted ZifyN ZifyNat ZifyBool.
From Verif Require Import Model_Base Model_Lit Model_PartialAssignment Model_Header Model_Arena Model_Prop
  Model_Heap Model_Vsids Model_Analysis Model_Luby Model_Solver Spec Proof_Base Proof_PA Proof_Lit
  Proof_Long Proof_Trail Proof_Backtrack Proof_Inv Proof_Propagate Proof_Gc Proof_Analysis Proof_DB Proof_Solver Proof_Search Proof_Solve Proof_Add
  Drivers_Solver Drivers_Search Proof_Main Proof_Visited Examples_Solver.
Import ListNotations.

(** ** C15 *)

(** The level of an assignment is the number of decisions made up to it.  It is
    a decision, or recorded with a reason: a stored clause of which the literal
    is a member and whose other literals became false earlier. *)
Theorem trail_reasons select dbg F cx se i s :
  select_ok (fun _ _ => True) select -> visited select dbg F cx se ->
  nth_error (t_steps (p_trail (se_prop se))) i = Some s ->
  s_level s = length (filter is_decision (firstn (S i) (t_steps (p_trail (se_prop se))))) /\
  (is_decision s = true \/
   exists rest, reason_rest (se_prop se) s rest /\ forall x, In x rest -> In (neg x) (firstn i (trail_lits (se_prop se)))).
Proof.
  intros Hs HV E. destruct (visited_SI _ _ _ _ _ Hs HV) as (K & L & st & es & HK & H).
  pose proof (s_pi _ _ _ _ _ _ _ _ H) as HP. split.
  - rewrite (tr_lev _ _ (pi_tr _ _ _ _ HP) _ _ E). rewrite (count_dec _ _ _ HP).
    + reflexivity.
    + apply nth_error_Some. congruence.
  - unfold is_decision. pose proof (pi_ri _ _ _ _ HP i s E) as R. destruct (s_reason s) as [| |b|c] eqn:Er; auto; right.
    + exists []. split; [|intros x []]. unfold reason_rest. rewrite Er. reflexivity.
    + destruct R as [R1 R2]. exists [b]. split.
      * apply (rsn_reason _ _ _ HP); [eapply nth_error_In; eauto|]. unfold rsn. rewrite Er. reflexivity.
      * intros x [<-|[]]. apply before_firstn; auto.
    + destruct R as (h & r & R1 & R2). exists r. split.
      * unfold reason_rest. rewrite Er. eapply LR_lits; [apply HP|eauto].
      * intros x Hx. apply before_firstn; auto.
Qed.
(** Unit reasons: the unit clause is an input clause or a proved addition. *)
Theorem trail_units select dbg F cx se s :
  select_ok (fun _ _ => True) select -> visited select dbg F cx se ->
  In s (t_steps (p_trail (se_prop se))) -> s_reason s = RUnit ->
  s_level s = 0 /\ exists steps L, drat_run F steps L /\ In [s_lit s] (L ++ F).
Proof.
  intros Hs HV Hi Er. destruct (visited_SI _ _ _ _ _ Hs HV) as (K & L & st & es & HK & H). split.
  - apply In_nth_error in Hi as [i E]. pose proof (pi_ri _ _ _ _ (s_pi _ _ _ _ _ _ _ _ H) i s E) as R. rewrite Er in R. exact R.
  - exists st, L. split; [apply H|]. eapply db_unit; [apply H|exact Hi|exact Er].
Qed.

(** Stored clauses are implied by the input clauses. *)
Lemma holds_implied select dbg F cx se c :
  select_ok (fun _ _ => True) select -> visited select dbg F cx se -> holds_clause (se_prop se) c ->
  forall v, sat_cnf v F -> sat_clause v c.
Proof.
  intros Hs HV HC v Hv. destruct (visited_SI _ _ _ _ _ Hs HV) as (K & L & st & es & HK & H).
  apply (holds_stored _ _ _ (s_pi _ _ _ _ _ _ _ _ H)) in HC. destruct (db_stored (s_db _ _ _ _ _ _ _ _ H) _ c HC) as (c' & Hc' & P).
  assert (HS : sat_clause v c'). { apply in_app_or in Hc' as [Hc'|Hc']; [eapply drat_sound; [apply H|exact Hv|auto]|auto]. }
  destruct HS as (l & Hl & Sl). exists l. split; auto. eapply Permutation_in; [apply Permutation_sym; exact P|auto].
Qed.

(** So every assignment satisfying the clauses and the decisions up to some
    point satisfies all assigned literals up to that point. *)
Theorem trail_implied select dbg F cx se v :
  select_ok (fun _ _ => True) select -> visited select dbg F cx se -> sat_cnf v F ->
  forall k, (forall s, In s (firstn k (t_steps (p_trail (se_prop se)))) -> is_decision s = true -> sat_lit v (s_lit s)) ->
  forall s, In s (firstn k (t_steps (p_trail (se_prop se)))) -> sat_lit v (s_lit s).
Proof.
  intros Hs HV Hv k Hd. assert (G : forall i s, i < k -> nth_error (t_steps (p_trail (se_prop se))) i = Some s -> sat_lit v (s_lit s)).
  { induction i as [i IH] using lt_wf_ind. intros s Hi E.
    destruct (trail_reasons _ _ _ _ _ _ _ Hs HV E) as (_ & [D|(rest & R & Hr)]).
    - apply Hd; auto. apply nth_error_In with i. rewrite nth_error_firstn. destruct (Nat.ltb_spec i k); [auto|lia].
    - assert (C : sat_clause v (s_lit s :: rest)).
      { unfold reason_rest in R. destruct (s_reason s) as [| |b|c] eqn:Er; try contradiction.
        - subst. destruct (trail_units _ _ _ _ _ s Hs HV (nth_error_In _ _ E) Er) as (_ & st & L & D & Hi').
          apply in_app_or in Hi' as [Hi'|Hi']; [eapply drat_sound; eauto|auto].
        - destruct R as [-> R]. eapply holds_implied; eauto.
        - eapply holds_implied; eauto. left. exists c. split; [exact R|discriminate]. }
      destruct C as (l & [<-|Hl] & Sl); auto. exfalso. apply (proj1 (sat_neg v l)); auto.
      specialize (Hr l Hl). unfold trail_lits in Hr. rewrite firstn_map in Hr. apply in_map_iff in Hr as (s' & <- & Hs').
      apply In_nth_error in Hs' as [j Ej]. rewrite nth_error_firstn in Ej. destruct (Nat.ltb_spec j i); [|discriminate]. eapply IH; eauto. lia. }
  intros s Hi. apply In_nth_error in Hi as [i E]. rewrite nth_error_firstn in E. destruct (Nat.ltb_spec i k); [|discriminate]. eapply G; eauto.
Qed.

(** ** C16 *)
Theorem propagate_complete select dbg F cx se cx' p :
  select_ok (fun _ _ => True) select -> visited select dbg F cx se ->
  propagate dbg cx (se_prop se) = Ret (cx', p, None) ->
  forall c, holds_clause p c ->
    (exists l, In l c /\ is_true p l) \/
    (exists x y rest, Permutation c (x :: y :: rest) /\ is_open p x /\ is_open p y).
Proof.
  intros Hs HV E c HC. destruct (visited_SI _ _ _ _ _ Hs HV) as (K & L & st & es & HK & H).
  destruct (SI_propagate dbg _ _ _ _ _ _ _ _ H) as (cx1 & p1 & es1 & r1 & E1 & H1 & _ & _ & HR).
  rewrite E in E1. inversion E1; subst cx1 p1 r1. destruct HR as [HQ _].
  pose proof (s_pi _ _ _ _ _ _ _ _ H1) as HP. cbn [se_prop] in HP.
  apply (holds_stored _ _ _ HP) in HC.
  pose proof (pi_pl _ _ _ _ HP) as PLp. pose proof (pi_pb _ _ _ _ HP) as PBp. rewrite HQ in PLp, PBp. unfold PL, PB in PLp, PBp. rewrite firstn_all in PLp, PBp.
  assert (Dc : forall l, is_true p l \/ is_false p l \/ is_open p l).
  { intro l. unfold is_open, is_true, is_false. destruct (in_dec N.eq_dec l (trail_lits p)); auto. destruct (in_dec N.eq_dec (neg l) (trail_lits p)); auto. }
  destruct HC as [(c0 & h & Hi & Hne)|(x & y & -> & Hx & Hy)].
  - destruct (pi_ll _ _ _ _ HP _ _ _ Hi Hne) as (L3 & _). destruct c as [|a [|b r]]; cbn [length] in L3; try lia.
    assert (G : forall w, w = a \/ w = b -> is_false p w -> exists l, In l (a :: b :: r) /\ is_true p l).
    { intros w Hw Fw. destruct (PLp _ _ _ _ _ Hi w Hw Fw) as (t & T1 & T2 & _). eauto. }
    destruct (Dc a) as [A|[A|A]]; [left; exists a; split; auto; left; auto|left; apply (G a); auto|].
    destruct (Dc b) as [B|[B|B]]; [left; exists b; split; auto; right; left; auto|left; apply (G b); auto|].
    right. exists a, b, r. split; auto.
  - destruct (bi_sym _ _ (pi_bi _ _ _ _ HP) x y Hx Hy) as [Hy' Hx'].
    destruct (Dc x) as [A|[A|A]]; [left; exists x; split; auto; left; auto|left; exists y; split; [right; left; auto|apply (PBp x y Hx Hy A)]|].
    destruct (Dc y) as [B|[B|B]]; [left; exists y; split; auto; right; left; auto|left; exists x; split; [left; auto|apply (PBp y x Hy' Hx' B)]|].
    right. exists x, y, []. split; auto.
Qed.
(** In the words of the property: no stored clause is falsified, and a clause
    without repeated literals is not unit. *)
Theorem propagate_complete_words select dbg F cx se cx' p :
  select_ok (fun _ _ => True) select -> visited select dbg F cx se ->
  propagate dbg cx (se_prop se) = Ret (cx', p, None) ->
  forall c, holds_clause p c ->
    ~ (forall x, In x c -> is_false p x) /\
    (NoDup c -> ~ exists l, In l c /\ is_open p l /\ forall x, In x c -> x <> l -> is_false p x).
Proof.
  intros Hs HV E c HC.
  assert (HVp : visited select dbg F cx' (with_prop se p)) by (eapply vis_propagate; eauto).
  destruct (visited_SI _ _ _ _ _ Hs HVp) as (K & L & st & es & HK & H).
  pose proof (pi_vr _ _ _ _ (s_pi _ _ _ _ _ _ _ _ H)) as VRp. cbn [with_prop se_prop] in VRp.
  destruct (propagate_complete _ _ _ _ _ _ _ Hs HV E c HC) as [(l & Hl & Tl)|(x & y & rest & P & Ox & Oy)].
  - split.
    + intro A. exact (VR_cons _ _ _ l VRp Tl (A l Hl)).
    + intros _ (l' & Hl' & [O1 O2] & A). destruct (N.eq_dec l l') as [->|N]; [contradiction|]. exact (VR_cons _ _ _ l VRp Tl (A l Hl N)).
  - assert (Hx : In x c) by (eapply Permutation_in; [apply Permutation_sym; exact P|left; auto]).
    assert (Hy : In y c) by (eapply Permutation_in; [apply Permutation_sym; exact P|right; left; auto]).
    split; [intro A; apply Ox; auto|]. intros ND (l & Hl & _ & A).
    assert (Nxy : x <> y). { apply (Permutation_NoDup P) in ND. inversion ND as [|? ? N1 _]. intros ->. apply N1. left; auto. }
    destruct (N.eq_dec x l) as [->|N]; [apply Oy, A; auto|apply Ox, A; auto].
Qed.
(** The same for the input clauses, whatever their length, unless the formula
    was already found unsatisfiable. *)
Theorem propagate_complete_input select dbg F cx se cx' p :
  select_ok (fun _ _ => True) select -> visited select dbg F cx se -> p_unsat (se_prop se) = false ->
  propagate dbg cx (se_prop se) = Ret (cx', p, None) ->
  forall c, In c F ->
    (exists l, In l c /\ is_true p l) \/
    (exists x y rest, Permutation c (x :: y :: rest) /\ is_open p x /\ is_open p y).
Proof.
  intros Hs HV HU E c Hc.
  assert (HVp : visited select dbg F cx' (with_prop se p)) by (eapply vis_propagate; eauto).
  destruct (visited_SI _ _ _ _ _ Hs HV) as (K & L & st & es & HK & H).
  destruct (SI_propagate dbg _ _ _ _ _ _ _ _ H) as (cx1 & p1 & es1 & r1 & E1 & H1 & HX & _ & HR).
  rewrite E in E1. inversion E1; subst cx1 p1 r1. pose proof (s_db _ _ _ _ _ _ _ _ H1) as HD. pose proof (s_pi _ _ _ _ _ _ _ _ H1) as HP. cbn [se_prop] in *.
  assert (HU' : p_unsat p = false) by (destruct HX as (_ & _ & -> & _); auto).
  assert (Hi : In c (L ++ F)) by (apply in_or_app; auto). destruct c as [|a [|b r]].
  - pose proof (db_empty _ _ _ _ _ _ HD Hi). congruence.
  - destruct (db_fact _ _ _ _ _ _ HD a Hi) as [U|(x & Hx & <- & _)]; [congruence|]. left. exists (s_lit x). split; [left; auto|apply in_map; auto].
  - destruct (db_stored_rev HD (cnf_vars F) (a :: b :: r)) as (cl & HS & P); auto; [intros x Hx; eapply (s_var _ _ _ _ _ _ _ _ H); eauto|cbn [length]; lia|].
    apply (holds_stored _ _ _ HP) in HS. destruct (propagate_complete _ _ _ _ _ _ _ Hs HV E cl HS) as [(l & Hl & Tl)|(x & y & rest & P' & O)].
    + left. exists l. split; auto. eapply Permutation_in; eauto.
    + right. exists x, y, rest. split; auto. eapply Permutation_trans; [apply Permutation_sym; exact P|exact P'].
Qed.

(** ** C17 *)
Theorem propagate_conflict select dbg F cx se cx' p c :
  select_ok (fun _ _ => True) select -> visited select dbg F cx se ->
  propagate dbg cx (se_prop se) = Ret (cx', p, Some c) ->
  exists cl, conflict_lits (p_long p) c = Ret cl /\ holds_clause p cl /\ (forall x, In x cl -> is_false p x) /\
    exists x, In x cl /\ true_at p (neg x) (decision_level (p_trail p)).
Proof.
  intros Hs HV E. destruct (visited_SI _ _ _ _ _ Hs HV) as (K & L & st & es & HK & H).
  destruct (SI_propagate dbg _ _ _ _ _ _ _ _ H) as (cx1 & p1 & es1 & r1 & E1 & H1 & _ & _ & HR).
  rewrite E in E1. inversion E1; subst cx1 p1 r1. destruct HR as [HC _]. pose proof (s_pi _ _ _ _ _ _ _ _ H1) as HP. cbn [se_prop] in HP.
  destruct (conf_stored _ _ _ _ HC) as (cl' & Ecl' & Hst). destruct HC as (cl & Ecl & _ & Hf & x & Hx & Hlev).
  rewrite Ecl in Ecl'. inversion Ecl'; subst cl'. exists cl. split; auto. split; [apply (holds_stored _ _ _ HP); auto|]. split; auto.
  exists x. split; auto. apply (true_at_slev _ _ _ HP). split; auto.
Qed.
(** Propagation only appends to the trail, and never fails otherwise. *)
Theorem propagate_extends select dbg F cx se :
  select_ok (fun _ _ => True) select -> visited select dbg F cx se ->
  exists cx' p r ext, propagate dbg cx (se_prop se) = Ret (cx', p, r) /\
    t_steps (p_trail p) = t_steps (p_trail (se_prop se)) ++ ext /\ (forall s, In s ext -> is_decision s = false) /\
    (r = None -> t_propagated (p_trail p) = length (t_steps (p_trail p))).
Proof.
  intros Hs HV. destruct (visited_SI _ _ _ _ _ Hs HV) as (K & L & st & es & HK & H).
  destruct (SI_propagate dbg _ _ _ _ _ _ _ _ H) as (cx1 & p1 & es1 & r1 & E1 & H1 & ((ext & Ex & Fx) & _) & _ & HR).
  exists cx1, p1, r1, ext. split; auto. split; auto. split.
  - intros s Hi. rewrite Forall_forall in Fx. destruct (Fx s Hi) as [_ N]. unfold is_decision. destruct (s_reason s); auto. congruence.
  - intros ->. tauto.
Qed.

(** ** C18 *)
(** [backtrack_to_level] keeps the steps of levels up to [k], in order, and calls
    the callback for all others, in trail order.  Clauses and watch lists are
    untouched.  The result is again a [visited] state, to which all theorems of
    this file apply: in particular the completeness of the next propagation. *)
Theorem backtrack_exact select dbg F cx se k :
  select_ok (fun _ _ => True) select -> visited select dbg F cx se ->
  let p := se_prop se in
  if k <? decision_level (p_trail p) then
    exists p' cb, backtrack_to_level dbg p k (search_cb se) = Ret (p', cb) /\
      t_steps (p_trail p') = filter (fun s => s_level s <=? k) (t_steps (p_trail p)) /\
      decision_level (p_trail p') = k /\
      foldM cb_unassign (map s_lit (filter (fun s => k <? s_level s) (t_steps (p_trail p)))) (search_cb se) = Ret cb /\
      p_long p' = p_long p /\ p_binary p' = p_binary p /\ p_watches p' = p_watches p /\
      (forall l, (exists c, In c F /\ In l c) ->
         pa_value (p_values p') l = Ret (if in_dec N.eq_dec l (trail_lits p') then Some true
                                        else if in_dec N.eq_dec (neg l) (trail_lits p') then Some false else None)) /\
      visited select dbg F cx (mkSearch p' (se_analysis se) (cb_vsids cb) (cb_phases cb))
  else backtrack_to_level dbg p k (search_cb se) = Panic PAssert.
Proof.
  intros Hs HV p. destruct (visited_SI _ _ _ _ _ Hs HV) as (K & L & st & es & HK & H).
  destruct (Nat.ltb_spec k (decision_level (p_trail p))) as [G|G].
  - destruct (SI_back dbg _ _ _ _ _ _ _ _ _ H G) as (target & ti & v' & cb & Et & E & H1 & Ef & _).
    destruct (filter_levels _ _ _ _ (pi_tr _ _ _ _ (s_pi _ _ _ _ _ _ _ _ H)) Et) as [F1 F2].
    eexists _, cb. split; [exact E|]. split; [exact F1|]. split.
    + pose proof (pi_tr _ _ _ _ (s_pi _ _ _ _ _ _ _ _ H)) as HT. fold p in HT.
      change (decision_level (t_back (p_trail p) k target ti) = k). unfold decision_level, t_back; cbn [t_decisions].
      rewrite firstn_length. rewrite (tr_dl _ _ HT) in G. rewrite (tr_hd _ _ HT). cbn [length]. lia.
    + split; [unfold p; rewrite <- F2; exact Ef|]. split; [reflexivity|]. split; [reflexivity|]. split; [reflexivity|]. split.
      * intros l (c & Hc & Hl). pose proof (s_var _ _ _ _ _ _ _ _ H c l Hc Hl) as Hv.
        pose proof (SI_value _ _ _ _ _ _ _ _ l H1 Hv) as V. cbn [se_prop] in V. rewrite V. unfold trail_lits.
        repeat (match goal with |- context [inb ?a ?b] => destruct (inb_spec a b) end); repeat (match goal with |- context [in_dec ?d ?a ?b] => destruct (in_dec d a b) end); try contradiction; reflexivity.
      * eapply vis_backtrack; eauto.
  - unfold backtrack_to_level. fold p. rewrite (proj2 (Nat.ltb_ge _ _)) by lia. reflexivity.
Qed.

(** ** C59 *)
(** An implied literal has the level of its reason: one of the literals that
    imply it is of the same level and none is of a higher one.  In a long clause
    the literal of the same level is the second one. *)
Theorem implied_level select dbg F cx se s rest :
  select_ok (fun _ _ => True) select -> visited select dbg F cx se ->
  In s (t_steps (p_trail (se_prop se))) -> reason_rest (se_prop se) s rest ->
  (forall x, In x rest -> exists k, k <= s_level s /\ true_at (se_prop se) (neg x) k) /\
  match rest with [] => s_level s = 0 | x :: _ => true_at (se_prop se) (neg x) (s_level s) end.
Proof.
  intros Hs HV Hi HR. destruct (visited_SI _ _ _ _ _ Hs HV) as (K & L & st & es & HK & H).
  pose proof (s_pi _ _ _ _ _ _ _ _ H) as HP. pose proof (pi_tr _ _ _ _ HP) as HT.
  pose proof (pi_vr _ _ _ _ HP) as VRp.
  apply In_nth_error in Hi as [i E]. set (p := se_prop se) in *. set (ss := t_steps (p_trail p)) in *.
  assert (LV : slev ss (s_lit s) = s_level s) by (eapply tr_slev; eauto).
  (* a literal false before step [i] *)
  assert (B : forall x, before ss i (neg x) -> exists j sj, j < i /\ nth_error ss j = Some sj /\ s_lit sj = neg x /\ slev ss (neg x) = s_level sj /\ s_level sj <= s_level s).
  { intros x (j & Ej & Lj). destruct (lpos_some _ _ _ Ej) as (sj & A & El). exists j, sj. split; auto. split; auto. split; auto.
    split; [rewrite <- El; eapply tr_slev; eauto|]. apply (tr_mono _ _ HT j i); auto. lia. }
  assert (T : forall x, before ss i (neg x) -> true_at p (neg x) (slev ss (neg x)) /\ slev ss (neg x) <= s_level s).
  { intros x Hx. destruct (B x Hx) as (j & sj & Lj & Ej & El & Ev & Le). split; [|lia]. exists sj. split; [eapply nth_error_In; eauto|auto]. }
  assert (Q : forall x, before ss i (neg x) -> In (neg x) (slits (firstn (t_propagated (p_trail p)) ss)) \/ slev ss (neg x) = s_level s).
  { intros x Hx. destruct (B x Hx) as (j & sj & Lj & Ej & El & Ev & Le).
    destruct (Nat.ltb_spec j (t_propagated (p_trail p))) as [Lq|Lq].
    - left. rewrite <- El. apply in_map. apply nth_error_In with j. rewrite nth_error_firstn. destruct (Nat.ltb_spec j (t_propagated (p_trail p))); [auto|lia].
    - right. rewrite Ev. pose proof (tr_lev_last _ _ HT _ _ Ej Lq). pose proof (tr_lev_le _ _ HT _ _ E). lia. }
  pose proof (pi_ri _ _ _ _ HP i s E) as R. unfold reason_rest in HR. destruct (s_reason s) as [| |b|c] eqn:Er; try contradiction.
  - subst rest. split; [intros x []|]. exact R.
  - destruct HR as [-> _]. destruct R as [R1 R2]. split.
    + intros x [<-|[]]. exists (slev ss (neg b)). destruct (T b R2). auto.
    + destruct (T b R2) as [T1 T2]. replace (s_level s) with (slev ss (neg b)); auto.
      destruct (Q b R2) as [Q1|Q1]; auto.
      assert (Hs' : In (s_lit s) (slits ss)) by (apply in_slits; eauto).
      pose proof (VR_range _ _ _ _ VRp Hs') as Hn.
      destruct (bi_sym _ _ (pi_bi _ _ _ _ HP) (s_lit s) b Hn R1) as [Hb Hs2].
      destruct (pi_pb _ _ _ _ HP b (s_lit s) Hb Hs2 Q1) as [_ Le]. fold ss in Le. fold p ss in Le. lia.
  - destruct R as (h & r & R1 & R2). pose proof (LR_lits _ _ (pi_lr _ _ _ _ HP) _ _ _ R1) as El. fold p in El. rewrite El in HR. inversion HR; subst rest.
    split.
    + intros x Hx. exists (slev ss (neg x)). destruct (T x (R2 x Hx)). auto.
    + destruct (pi_ll _ _ _ _ HP _ _ _ R1 ltac:(discriminate)) as (L3 & _). destruct r as [|b r]; cbn [length] in L3; [lia|].
      specialize (R2 b (or_introl eq_refl)) as Rb. destruct (T b Rb) as [T1 T2]. replace (s_level s) with (slev ss (neg b)); auto.
      destruct (Q b Rb) as [Q1|Q1]; auto.
      destruct (pi_pl _ _ _ _ HP _ _ _ _ _ R1 b (or_intror eq_refl) Q1) as (t & Ht & Tt & Le). fold p ss in Tt, Le.
      destruct Ht as [<-|Ht]; [lia|]. exfalso. destruct (R2 t Ht) as (j & Ej & _). destruct (lpos_some _ _ _ Ej) as (sj & A & Et).
      apply (VR_cons _ _ _ t VRp); auto. fold p ss. rewrite <- Et. apply in_map. eapply nth_error_In; eauto.
Qed.

(** ** Examples: states of the pigeonhole run and of a satisfiable run *)
Definition at_step (F : list (list N)) (k : nat) : solver := after true k (added true F).
Definition prop_at F k : prop := se_prop (sta_search (so_state (at_step F k))).
Example php4_visited k : visited select_sort true php4 (so_ctx (at_step php4 k)) (sta_search (so_state (at_step php4 k))).
Proof. apply vis_solver, reach_after, reach_built, php4_built. Qed.
Example sat5_visited k : visited select_sort true sat5 (so_ctx (at_step sat5 k)) (sta_search (so_state (at_step sat5 k))).
Proof. apply vis_solver, reach_after, reach_built, sat5_built. Qed.
(** The trail after the third decision is propagated to three more literals,
    with binary and long reasons. *)
Example trail_reasons_example :
  match propagate true (so_ctx (at_step php4 3)) (prop_at php4 3) with
  | Ret (_, p, None) => map s_reason (t_steps (p_trail p)) = [RDecision; RDecision; RDecision; RLong 18; RBinary 18; RBinary 18]%N /\
                        map s_level (t_steps (p_trail p)) = [1; 2; 3; 3; 3; 3]
  | _ => False
  end.
Proof. vm_compute. split; reflexivity. Qed.
(** The fourth step of this trail has a long reason, whose second literal is
    false since the same level 3. *)
Example implied_level_example :
  match propagate true (so_ctx (at_step php4 3)) (prop_at php4 3) with
  | Ret (cx, p, None) => visited select_sort true php4 cx (with_prop (sta_search (so_state (at_step php4 3))) p) /\
      exists s, nth_error (t_steps (p_trail p)) 3 = Some s /\ s_level s = 3 /\ reason_rest p s [21; 23]%N
  | _ => False
  end.
Proof.
  assert (V : forall cx p, propagate true (so_ctx (at_step php4 3)) (prop_at php4 3) = Ret (cx, p, None) ->
    visited select_sort true php4 cx (with_prop (sta_search (so_state (at_step php4 3))) p))
    by (intros cx p E; eapply vis_propagate; [apply php4_visited|exact E]).
  assert (R : match propagate true (so_ctx (at_step php4 3)) (prop_at php4 3) with
    | Ret (cx, p, None) => exists s, nth_error (t_steps (p_trail p)) 3 = Some s /\ s_level s = 3 /\ reason_rest p s [21; 23]%N
    | _ => False end) by (vm_compute; eexists; repeat split; reflexivity).
  destruct (propagate _ _ _) as [[[cx p] [r|]]| |]; auto.
Qed.
(** A binary and a long conflict. *)
Example propagate_conflict_example :
  match propagate true (so_ctx (at_step php4 4)) (prop_at php4 4) with
  | Ret (_, p, Some c) => conflict_lits (p_long p) c = Ret [4; 10]%N /\ decision_level (p_trail p) = 4
  | _ => False
  end /\
  match propagate true (so_ctx (at_step sat5 2)) (prop_at sat5 2) with
  | Ret (_, p, Some c) => conflict_lits (p_long p) c = Ret [5; 2; 1]%N /\ trail_lits p = [0; 4; 3]%N
  | _ => False
  end.
Proof. vm_compute. repeat split; reflexivity. Qed.
Example backtrack_exact_example :
  match backtrack_to_level true (prop_at php4 5) 1 (search_cb (sta_search (so_state (at_step php4 5)))) with
  | Ret (p, _) => trail_lits p = [0]%N /\ length (trail_lits (prop_at php4 5)) = 7
  | _ => False
  end.
Proof. vm_compute. repeat split; reflexivity. Qed.
Print Assumptions trail_reasons. Print Assumptions trail_units. Print Assumptions trail_implied.
Print Assumptions propagate_complete. Print Assumptions propagate_complete_words. Print Assumptions propagate_complete_input.
Print Assumptions propagate_conflict. Print Assumptions propagate_extends. Print Assumptions backtrack_exact. Print Assumptions implied_level.
