(** C83: unit propagation along one branch of the search takes linear time. *)
From Coq Require Import NArith List Bool Arith Lia ZifyN ZifyNat ZifyBool.
From Verif Require Import Model_Base Model_Lit Model_PartialAssignment Model_Header Model_Arena Model_Prop
  Model_Heap Model_Vsids Model_Analysis Model_Cost Model_Work Model_Luby Model_Solver Spec Proof_Base Proof_PA Proof_Lit
  Proof_Long Proof_Trail Proof_Backtrack Proof_Inv Proof_Propagate Proof_PropOps Proof_Gc Proof_Glue Proof_Analysis
  Proof_Solver Proof_Search Drivers_Solver Drivers_Search Proof_Visited Proof_Cost Proof_Work Examples_Solver Prop_Prop Prop_Analysis.
Import ListNotations.

(** The number of literals in the stored long clauses, from those after [c] on. *)
Inductive literals_after (a : arena) : option cref -> nat -> Prop :=
| la_end c : long_next a c = Ret None -> literals_after a c 0
| la_next c r ls m : long_next a c = Ret (Some r) -> long_lits a r = Ret ls ->
    literals_after a (Some r) m -> literals_after a c (length ls + m).
Definition long_literals (p : prop) (m : nat) : Prop := literals_after (p_long p) None m.

(** The number of entries in the watch lists and in the lists of binary clauses. *)
Definition watch_entries (p : prop) : nat := list_sum (map (@length watch) (ws_by_lit (p_watches p))).
Definition binary_entries (p : prop) : nat := list_sum (map (@length lit) (p_binary p)).

(** [branch dbg p w p']: from [p], complete propagations without conflict, each
    followed by a decision for an unassigned variable, lead to [p'] with [w] units
    of work.  The decisions are arbitrary. *)
Inductive branch (dbg : bool) (p : prop) : nat -> prop -> Prop :=
| br_start : branch dbg p 0 p
| br_decide w p1 cx cx' p2 k l p3 : branch dbg p w p1 ->
    propagate_n dbg cx p1 = Ret ((cx', p2, None), k) ->
    pa_is_assigned (p_values p2) (lit_var l) = Ret false -> assign_decision dbg p2 l = Ret p3 ->
    branch dbg p (w + k) p3.

(** ** C83 *)
(** Counting changes no result. *)
Theorem counted_propagate dbg cx p r :
  propagate dbg cx p = Ret r <-> exists work, propagate_n dbg cx p = Ret (r, work).
Proof.
  rewrite <- er_propagate. unfold erase. destruct (propagate_n dbg cx p) as [[a k]| |]; cbn [bind]; split; try discriminate.
  - intro E. inversion E; eauto.
  - intros (w & E). inversion E; auto.
  - intros (w & E). discriminate.
  - intros (w & E). discriminate.
Qed.

Lemma first_live_dead d es : (forall e, In e d -> le_live e = false) -> first_live_l (d ++ es) = first_live_l es.
Proof. induction d as [|e d IH]; intro H; [reflexivity|]. cbn [app first_live_l]. rewrite (H e (or_introl eq_refl)). apply IH. intros; apply H; right; auto. Qed.
Lemma literals_exist es2 : forall a es1 d iter, LR a (es1 ++ d ++ es2) -> at_iter es1 iter -> (forall e, In e d -> le_live e = false) ->
  literals_after a iter (list_sum (map (fun e => length (le_lits e)) es2)).
Proof.
  induction es2 as [|e es2 IH]; intros a es1 d iter H Hi Hd.
  - apply la_end. rewrite (next_at _ _ _ _ H Hi), first_live_dead by auto. reflexivity.
  - cbn [map list_sum fold_right]. destruct (le_live e) eqn:El.
    + eapply la_next with (r := le_ref e).
      * rewrite (next_at _ _ _ _ H Hi), first_live_dead by auto. cbn [first_live_l]. rewrite El. reflexivity.
      * destruct e as [[c h] ls]. eapply LR_lits; [exact H|]. apply in_or_app. right. apply in_or_app. right. left. reflexivity.
      * apply (IH a (es1 ++ d ++ [e]) []); [|exists (es1 ++ d), e; split; [rewrite app_assoc|]; reflexivity|intros x []].
        rewrite <- !app_assoc. cbn [app]. exact H.
    + assert (Z : length (le_lits e) = 0) by (destruct e as [[c h] [|x ls]]; [reflexivity|discriminate]).
      rewrite Z. apply (IH a es1 (d ++ [e])); auto.
      * rewrite <- app_assoc. exact H.
      * intros x Hx. apply in_app_or in Hx as [Hx|[<-|[]]]; auto.
Qed.

Lemma propagate_pot n es dbg cx p cx' p' r k : PI n es p -> FR p -> propagate_n dbg cx p = Ret ((cx', p', r), k) ->
  match r with
  | None => k + phi n (map le_ref es) p' <= phi n (map le_ref es) p /\ FR p'
  | Some _ => k <= phi n (map le_ref es) p
  end.
Proof.
  intros H HF E. unfold propagate_n, enable_watch_lists in E. rewrite (pi_en _ _ _ _ H) in E. cbn [Bool.eqb] in E.
  apply bindC_ret in E as (p0 & k1 & k2 & E1 & E & ->). apply units_ret in E1 as [E1 ->]. inversion E1; subst p0. clear E1.
  apply bindC_ret in E as ([p1 r1] & k3 & k4 & E2 & E & ->). pose proof (ploop_pot _ _ _ _ _ _ _ _ H HF E2) as HP.
  destruct r1 as [c|]; inversion E; subst; [lia|]. destruct HP. split; [lia|auto].
Qed.
Lemma branch_pot n dbg p w p' : branch dbg p w p' -> forall es, PI n es p -> FR p ->
  exists es', PI n es' p' /\ FR p' /\ map le_ref es' = map le_ref es /\ w + phi n (map le_ref es) p' <= phi n (map le_ref es) p.
Proof.
  induction 1 as [|w p1 cx cx' p2 k l p3 HB IH E Ha Ed]; intros es H HF; [exists es; split; [|split; [|split]]; auto|].
  destruct (IH es H HF) as (es1 & H1 & HF1 & R1 & L1).
  destruct (propagate_pot _ _ _ _ _ _ _ _ _ H1 HF1 E) as [L2 HF2].
  assert (E' : propagate dbg cx p1 = Ret (cx', p2, None)) by (apply counted_propagate; eauto).
  destruct (propagate_ok n es1 dbg cx p1 H1) as (cx2 & q2 & es2 & r2 & E2 & H2 & HE & X2 & Q2 & R2).
  rewrite E' in E2. inversion E2; subst cx2 q2 r2. destruct R2 as [R2 _].
  pose proof (ESR_refs _ _ HE) as HR.
  assert (Hv : vidx l < n).
  { destruct (pi_vr _ _ _ _ H2) as (_ & m & (Hl & _) & Hm & _). unfold pa_is_assigned in Ha.
    destruct (vget (p_values p2) (N.to_nat (lit_var l))) eqn:Ev; try discriminate. apply vget_lt in Ev. rewrite Hl, Hm in Ev. exact Ev. }
  rewrite (VR_assigned _ _ _ _ (pi_vr _ _ _ _ H2) Hv) in Ha. inversion Ha as [Hb]. apply orb_false_elim in Hb as [B1 B2].
  assert (N1 : ~ In l (slits (t_steps (p_trail p2)))) by (destruct (inb_spec l (slits (t_steps (p_trail p2)))); [discriminate|auto]).
  assert (N2 : ~ In (neg l) (slits (t_steps (p_trail p2)))) by (destruct (inb_spec (neg l) (slits (t_steps (p_trail p2)))); [discriminate|auto]).
  destruct (assign_decision_ok n dbg p2 l (pi_tr _ _ _ _ H2) (pi_vr _ _ _ _ H2) Hv N1 N2) as (v' & E3 & V3).
  rewrite Ed in E3. inversion E3; subst p3. clear E3.
  pose proof (PI_decide n es2 p2 l v' H2 Hv N1 N2 R2 V3) as H3. pose proof (decide_pot n es2 p2 l v' H2) as L3.
  exists es2. split; [exact H3|]. split; [|split; [congruence|]].
  - eapply level_FR; [apply (pi_tr _ _ _ _ H3)|]. rewrite (tr_dl _ _ (pi_tr _ _ _ _ H3)). unfold p_set_vt. cbn [p_trail t_decide t_decisions].
    rewrite (tr_hd _ _ (pi_tr _ _ _ _ H2)). cbn [app tl]. rewrite app_length. cbn. lia.
  - rewrite HR, R1 in *. lia.
Qed.

(** The work of all propagations along a branch together, ending in a conflict or
    not, is linear in the size of the clauses and their lists.  At level zero the
    trail must not list a literal twice, which it does only when a unit clause was
    added twice to a release build (see C45). *)
Theorem branch_linear select dbg F cx0 se w p cx cx' p' r k :
  select_ok (fun _ _ => True) select -> visited select dbg F cx0 se ->
  decision_level (p_trail (se_prop se)) <> 0 \/ NoDup (map s_lit (t_steps (p_trail (se_prop se)))) ->
  branch dbg (se_prop se) w p -> propagate_n dbg cx p = Ret ((cx', p', r), k) ->
  exists m, long_literals (se_prop se) m /\
    w + k <= 4 * m + 2 * watch_entries (se_prop se) + binary_entries (se_prop se).
Proof.
  intros Hs HV Hf HB E. destruct (visited_SI _ _ _ _ _ Hs HV) as (K & L & steps & es & _ & HS). pose proof (s_pi _ _ _ _ _ _ _ _ HS) as HP.
  assert (HF : FR (se_prop se)) by (destruct Hf as [Hd|Hd]; [eapply level_FR; [apply (pi_tr _ _ _ _ HP)|auto]|apply nodup_FR; auto]).
  destruct (branch_pot _ _ _ _ _ HB es HP HF) as (es' & HP' & HF' & R' & L').
  pose proof (propagate_pot _ _ _ _ _ _ _ _ _ HP' HF' E) as LK. rewrite R' in LK.
  exists (list_sum (map (fun e => length (le_lits e)) es)). split.
  - apply (literals_exist es _ [] []); [apply (pi_lr _ _ _ _ HP)|reflexivity|intros e []].
  - pose proof (phi_bound _ _ _ HP) as PB. unfold watch_entries, binary_entries. destruct r; lia.
Qed.

(** The pigeonhole problem for four pigeons: a branch with four decisions ends in a
    conflict. *)
Fixpoint follow (dbg : bool) (cx : ctx) (p : prop) (ls : list lit) (w : nat) : res (nat * ctx * prop) :=
  match ls with
  | [] => Ret (w, cx, p)
  | l :: ls => let* (cx', p2, r, k) := propagate_n dbg cx p in
      let* b := pa_is_assigned (p_values p2) (lit_var l) in
      match r, b with
      | None, false => let* p3 := assign_decision dbg p2 l in follow dbg cx' p3 ls (w + k)
      | _, _ => Panic PUnwrap
      end
  end.
Lemma follow_branch dbg p0 ls : forall cx p w w' cx' p', branch dbg p0 w p -> follow dbg cx p ls w = Ret (w', cx', p') -> branch dbg p0 w' p'.
Proof.
  induction ls as [|l ls IH]; intros cx p w w' cx' p' HB E; cbn [follow] in E; [inversion E; subst; auto|].
  destruct (propagate_n dbg cx p) as [[[[cx1 p2] r] k]| |] eqn:E1; try discriminate. cbn [bind] in E.
  destruct (pa_is_assigned (p_values p2) (lit_var l)) as [b| |] eqn:E2; try discriminate. cbn [bind] in E.
  destruct r; [discriminate|]. destruct b; [discriminate|]. destruct (assign_decision dbg p2 l) as [p3| |] eqn:E3; try discriminate. cbn [bind] in E.
  eapply IH; [|exact E]. eapply br_decide; eauto.
Qed.
Definition php4_decisions : list lit := [0; 22; 20; 16]%N.
Lemma la_next' a c r ls m : long_next a c = Ret (Some r) -> long_lits a r = Ret ls -> length ls <= m ->
  literals_after a (Some r) (m - length ls) -> literals_after a c m.
Proof. intros A B C D. replace m with (length ls + (m - length ls)) by lia. econstructor; eauto. Qed.
Example branch_linear_example :
  exists w p cx cx' p' c k, branch true (prop_at php4 0) w p /\ decision_level (p_trail p) = 4 /\
    propagate_n true cx p = Ret ((cx', p', Some c), k) /\ (w, k) = (11, 10) /\
    long_literals (prop_at php4 0) 12 /\ watch_entries (prop_at php4 0) = 8 /\ binary_entries (prop_at php4 0) = 36 /\
    NoDup (map s_lit (t_steps (p_trail (prop_at php4 0)))).
Proof.
  destruct (follow true (so_ctx (at_step php4 0)) (prop_at php4 0) php4_decisions 0) as [[[w cx] p]| |] eqn:E; [|vm_compute in E; discriminate|vm_compute in E; discriminate].
  exists w, p, cx. pose proof (follow_branch _ _ _ _ _ _ _ _ _ (br_start true (prop_at php4 0)) E) as HB. vm_compute in E. inversion E; subst w cx p. clear E.
  do 4 eexists. split; [exact HB|]. clear HB. split; [reflexivity|]. split; [vm_compute; reflexivity|]. split; [reflexivity|].
  split; [|split; [reflexivity|split; [reflexivity|vm_compute; constructor]]].
  do 4 (eapply la_next'; [vm_compute; reflexivity|vm_compute; reflexivity|cbn; lia|cbn [length Nat.sub]]). apply la_end. vm_compute. reflexivity.
Qed.

Print Assumptions counted_propagate.
Print Assumptions branch_linear.
