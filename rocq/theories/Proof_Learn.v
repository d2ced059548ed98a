(** Learning a clause: the whole of conflict analysis. *)
From Coq Require Import NArith List Bool Arith Lia Permutation Sorted ZifyN ZifyNat ZifyBool.
From Verif Require Import Model_Base Model_Lit Model_PartialAssignment Model_Header Model_Arena Model_Prop
  Model_Heap Model_Vsids Model_Analysis Spec Drivers_Arena Proof_Base Proof_PA Proof_Lit Proof_Header Proof_Arena
  Proof_ArenaHist Proof_Long Proof_Trail Proof_Heap Proof_Backtrack Proof_Inv Proof_Propagate Proof_PropOps Proof_Glue
  Proof_Analysis Proof_Derive Proof_Minimize Proof_Size.
Import ListNotations.

(** The effect of storing a clause. *)
Definition st_add (s : stats) (h : long_header) (cl : list N) : stats :=
  match cl with
  | [] | [_] => s
  | [_; _] => mkStats (st_propagations s) (st_fixed_vars s)
                   (st_binary s + 1) (st_irredundant s) (st_redundant s) (st_vars s)
                   (st_decisions s) (st_conflicts s) (st_restarts s) (st_reductions s)
  | _ => if lh_redundant h
         then mkStats (st_propagations s) (st_fixed_vars s)
                (st_binary s) (st_irredundant s) (st_redundant s + 1) (st_vars s)
                (st_decisions s) (st_conflicts s) (st_restarts s) (st_reductions s)
         else mkStats (st_propagations s) (st_fixed_vars s)
                (st_binary s) (st_irredundant s + 1) (st_redundant s) (st_vars s)
                (st_decisions s) (st_conflicts s) (st_restarts s) (st_reductions s)
  end.

Definition db_add (h : long_header) (cl : list N) (es : list lent) (b : list (list N)) (es' : list lent) (b' : list (list N)) : Prop :=
  match cl with
  | [] | [_] => es' = es /\ b' = b
  | [x; y] => es' = es /\ forall z, bin b' z = badd b x y z
  | _ => b' = b /\ exists c, es' = es ++ [(c, h, cl)] /\ (forall e, In e es -> le_ref e <> c)
  end.

Definition reason_of (cl : list N) (es' : list lent) (r : reason) : Prop :=
  match cl with
  | [] => False
  | [_] => r = RUnit
  | [_; y] => r = RBinary y
  | _ => exists c h, r = RLong c /\ In (c, h, cl) es'
  end.

Lemma assign_ok n es dbg p s : PI n es p -> vidx (s_lit s) < n -> fresh dbg (p_trail p) s ->
  exists v', assign dbg p s = Ret (p_push p v' s) /\ VR n v' (slits (t_steps (p_trail p) ++ [s])).
Proof.
  intros H Hv Hf. unfold assign.
  destruct (assign_raw_ok n dbg (p_values p) (p_trail p) s) as (v' & E & HV); auto; try apply H.
  rewrite E. cbn [bind]. exists v'. auto.
Qed.

Lemma fresh_new dbg t s : ~ In (s_lit s) (slits (t_steps t)) -> ~ In (neg (s_lit s)) (slits (t_steps t)) -> fresh dbg t s.
Proof. intros A B. split; auto. Qed.

Lemma falsified_vidx n es p x : PI n es p -> In (neg x) (slits (t_steps (p_trail p))) -> vidx x < n.
Proof. intros H Hi. rewrite <- vidx_neg. eapply VR_range; [apply H|]; auto. Qed.

Lemma an_set_glue_same an : an_set_glue an (an_glue_flags an) = an.
Proof. destruct an. reflexivity. Qed.

Section Learn.
Variables (n : nat) (es : list lent) (p : prop) (dbg : bool).
Hypothesis HP : PI n es p.
Notation ss := (t_steps (p_trail p)).
Notation d := (decision_level (p_trail p)).

Lemma dbg_check cl : falsified ss cl ->
  foldM (fun (u : unit) l => let* f := pa_is_false (p_values p) l in if f then Ret u else Panic PDebug) cl tt = Ret tt.
Proof.
  intro Hf. induction cl as [|x r IH]; [reflexivity|]. cbn [foldM].
  rewrite (VR_false n (p_values p) (slits ss) x); [|apply HP|eapply falsified_vidx; eauto; apply Hf; simpl; auto].
  rewrite (proj2 (inb_true _ _)) by (apply Hf; simpl; auto). cbn [bind]. apply IH. intros y Hy. apply Hf. simpl; auto.
Qed.

Lemma learn_ok cx an a rest : vidx a < n -> ~ In a (slits ss) -> ~ In (neg a) (slits ss) -> falsified ss rest ->
  match rest with [] => d = 0 | b :: _ => slev ss (neg b) = d end ->
  allf (an_glue_flags an) -> d < length (an_glue_flags an) -> an_derived an = a :: rest ->
  (learn_and_assign dbg cx an p = Panic PFull /\ (afull (p_long p) \/ (HEADER_MASK < N.of_nat (length (a :: rest)))%N)) \/
  exists es' p' h r, learn_and_assign dbg cx an p =
      Ret (mkCtx (st_add (cx_stats cx) h (a :: rest)) (cx_proof (cx_log cx (PAdd (a :: rest)))), an, p') /\
    PI n es' p' /\ db_add h (a :: rest) es (p_binary p) es' (p_binary p') /\ reason_of (a :: rest) es' r /\
    lh_redundant h = true /\ lh_protected h = false /\
    t_steps (p_trail p') = ss ++ [mkStep a d r] /\ t_decisions (p_trail p') = t_decisions (p_trail p) /\
    t_propagated (p_trail p') = t_propagated (p_trail p) /\ p_unsat p' = p_unsat p /\
    match rest with
    | _ :: _ :: _ => h = lh_set_glue lh_new_learned (N.of_nat (length (levels ss rest))) /\ exists c, r = RLong c /\ es' = es ++ [(c, h, a :: rest)]
    | _ => True end.
Proof.
  intros Hv Na Nn Hf Hlev HG HL Hd. unfold learn_and_assign. rewrite Hd. cbn [tl].
  assert (E0 : (if dbg then foldM (fun (u : unit) l =>
          let* f := pa_is_false (p_values p) l in
          if f then Ret u else Panic PDebug) rest tt else Ret tt) = Ret tt).
  { destruct dbg; auto. apply dbg_check; auto. }
  rewrite E0. cbn [bind]. clear E0.
  assert (Hv' : forall x, In x (a :: rest) -> vidx x < n).
  { intros x [<-|Hx]; auto. eapply falsified_vidx; eauto. }
  destruct rest as [|b [|b2 r]].
  - (* unit *)
    cbn [length Nat.ltb Nat.leb bind add_clause_verbatim].
    rewrite (VR_false n (p_values p) (slits ss) a); [|apply HP|auto]. cbn [bind].
    rewrite (proj2 (inb_false _ _)) by auto. rewrite Hlev in *.
    destruct (assign_ok n es dbg p (mkStep a 0 RUnit) HP Hv) as (v' & E & HV); [apply fresh_new; auto|].
    rewrite E. cbn [bind]. right. exists es, (p_push p v' (mkStep a 0 RUnit)), lh_new_learned, RUnit.
    split; [destruct cx; reflexivity|]. split.
    + eapply PI_unit with (dbg := dbg); eauto; [apply fresh_new; auto|]. intro G. contradiction.
    + split; [cbn; auto|]. split; [reflexivity|]. split; [reflexivity|]. split; [reflexivity|]. auto.
  - (* binary *)
    cbn [length Nat.ltb Nat.leb bind add_clause_verbatim]. 
    destruct (bin_add_ok n (p_binary p) a b) as (b' & E & L & B); [apply (bi_len _ _ (pi_bi _ _ _ _ HP))|auto|apply Hv'; simpl; auto|].
    rewrite E. cbn [bind vget nth_error]. unfold vget. cbn [nth_error bind].
    assert (Hv1 := VR_assign n (p_values p) (slits ss) a (pi_vr _ _ _ _ HP) Hv Nn).
    set (s := mkStep a d (RBinary b)). change (decision_level (p_trail (p_set_binary p b'))) with d. fold s.
    destruct (assign_raw_ok n dbg (p_values p) (p_trail p) s (pi_tr _ _ _ _ HP) (pi_vr _ _ _ _ HP) Hv (fresh_new dbg _ s Na Nn)) as (v' & E1 & HV).
    unfold assign. change (p_values (p_set_binary p b')) with (p_values p). change (p_trail (p_set_binary p b')) with (p_trail p).
    rewrite E1. cbn [bind]. right. exists es, (p_push (p_set_binary p b') v' s), lh_new_learned, (RBinary b).
    split; [destruct cx; reflexivity|]. split.
    + apply PI_learn_bin; auto; [apply Hv'; simpl; auto|apply Hf; simpl; auto].
    + split; [split; auto|]. split; [reflexivity|]. split; [reflexivity|]. split; [reflexivity|]. auto.
  - (* long *)
    cbn [length Nat.ltb Nat.leb]. rewrite (compute_glue_ok n); [|apply HP|intros x Hx; right; apply Hf; auto|auto|auto].
    cbn [bind]. rewrite an_set_glue_same.
    set (h := lh_set_glue lh_new_learned _).
    assert (Hh : h = lh_set_glue lh_new_learned (N.of_nat (length (levels ss (b :: b2 :: r))))) by reflexivity.
    assert (Hok : lh_ok h) by (apply lh_ok_set_glue, lh_ok_new_learned).
    assert (Hred : lh_redundant h = true) by (unfold h; rewrite redundant_set_glue; [reflexivity|apply lh_ok_new_learned]).
    assert (Hprot : lh_protected h = false) by (unfold h; rewrite protected_set_glue; [reflexivity|apply lh_ok_new_learned]).
    assert (Hsp : lh_search_pos h = 0%N) by reflexivity.
    clearbody h. unfold add_clause_verbatim.
    destruct (LR_add _ _ (pi_lr _ _ _ _ HP) h (a :: b :: b2 :: r) Hok) as [(a' & E & HLR)|[E HF]].
    { apply Forall_forall. intros x Hx. eapply clear_lit; [apply HP|]; auto. }
    { discriminate. }
    2:{ rewrite E. cbn [bind]. left. split; [reflexivity|exact HF]. }
    rewrite E. cbn [bind]. set (c := length (a_buffer (p_long p))) in *.
    destruct (watch_clause_ok n (p_watches p) c a b) as (w' & E1 & A1 & A2 & A3);
      [apply HP|apply (pi_wl _ _ _ _ HP)|auto|apply Hv'; simpl; auto|].
    rewrite E1. cbn [bind]. unfold vget. cbn [nth_error bind].
    set (s := mkStep a d (RLong c)).
    change (decision_level (p_trail (p_set_watches (p_set_long p a') w'))) with d. fold s.
    destruct (assign_raw_ok n dbg (p_values p) (p_trail p) s (pi_tr _ _ _ _ HP) (pi_vr _ _ _ _ HP) Hv (fresh_new dbg _ s Na Nn)) as (v' & E2 & HV).
    unfold assign. change (p_values (p_set_watches (p_set_long p a') w')) with (p_values p).
    change (p_trail (p_set_watches (p_set_long p a') w')) with (p_trail p).
    rewrite E2. cbn [bind]. right.
    assert (Hfr : forall e, In e es -> le_ref e <> c) by (intros e He; apply (LR_fresh _ _ (pi_lr _ _ _ _ HP)); auto).
    exists (es ++ [(c, h, a :: b :: b2 :: r)]), (p_push (p_set_watches (p_set_long p a') w') v' s), h, (RLong c).
    split; [rewrite Hred; cbn [st_add]; rewrite Hred; destruct cx; reflexivity|]. split.
    + apply PI_learn_long; auto. discriminate.
    + split; [split; auto; exists c; auto|]. split; [exists c, h; split; auto; apply in_or_app; simpl; auto|].
      split; [auto|]. split; [auto|]. repeat (split; auto). exists c. auto.
Qed.
End Learn.

Definition vassigned (ls : list N) (v : nat) : Prop := exists l, vidx l = v /\ In l ls.

Lemma vassigned_lit ls l : vassigned ls (vidx l) <-> In l ls \/ In (neg l) ls.
Proof.
  split.
  - intros (x & E & Hi). assert (G : (x / 2 = l / 2)%N).
    { unfold vidx in E. apply N2Nat.inj in E. change 1%N with (N.of_nat 1) in E. rewrite !N.shiftr_div_pow2 in E. exact E. }
    destruct (same_var_cases _ _ G) as [-> | ->]; auto.
  - intros [H|H]; [exists l; auto|exists (neg l)]. rewrite vidx_neg. auto.
Qed.

Lemma vidx_cons_nodup n vals ls : VR n vals ls -> forall l2, NoDup l2 -> incl l2 ls -> NoDup (map vidx l2).
Proof.
  intros HV. induction l2 as [|a l2 IH]; intros ND Hi; [constructor|]. apply NoDup_cons_iff in ND as [N1 N2]. cbn [map].
  constructor.
  - intro Q. apply in_map_iff in Q as (b & Eb & Hb). assert (V : vassigned [b] (vidx a)) by (exists b; simpl; auto).
    apply vassigned_lit in V as [[V|[]]|[V|[]]]; subst; [contradiction|].
    apply (VR_cons n vals ls a HV); apply Hi; simpl; auto.
  - apply IH; auto. intros x Hx. apply Hi. simpl; auto.
Qed.

(** ** analyze_conflict *)
Definition learned_from (es : list lent) (ss : list step) (cl C : list N) : Prop :=
  forall U, closed es ss U -> (forall x, In x C -> U (neg x)) -> forall x, In x cl -> U (neg x).

Record analyzed (n : nat) (es : list lent) (p : prop) (cx : ctx) (cb : callbacks) (cl : list N)
    (cx' : ctx) (an' : analysis) (p' : prop) (cb' : callbacks)
    (es1 es' : list lent) (h : long_header) (a : N) (rest : list N) (r : reason) (level target : nat) : Prop := {
  az_es : ESH es es1;
  az_un : unprot es -> unprot es1;
  az_pi : PI n es' p';
  az_db : db_add h (a :: rest) es1 (p_binary p) es' (p_binary p');
  az_rs : reason_of (a :: rest) es' r;
  az_red : lh_redundant h = true;
  az_prot : lh_protected h = false;
  az_an : AN an';
  az_lt : level < decision_level (p_trail p);
  az_tg : nth_error (tl (t_decisions (p_trail p))) level = Some target;
  az_ss : t_steps (p_trail p') = firstn target (t_steps (p_trail p)) ++ [mkStep a level r];
  az_ds : t_decisions (p_trail p') = firstn (level + 1) (t_decisions (p_trail p));
  az_q : t_propagated (p_trail p') = Nat.min (t_propagated (p_trail p)) target;
  az_a : In (neg a) (slits (t_steps (p_trail p)));
  az_al : slev (t_steps (p_trail p)) (neg a) = decision_level (p_trail p);
  az_f : falsified (firstn target (t_steps (p_trail p))) rest;
  az_b : match rest with [] => level = 0 | b :: _ => slev (t_steps (p_trail p)) (neg b) = level end;
  az_nd : NoDup (a :: rest);
  az_rup : learned_from es (t_steps (p_trail p)) cl (a :: rest);
  az_cx : cx' = mkCtx (st_add (cx_stats cx) h (a :: rest)) (cx_proof (cx_log cx (PAdd (a :: rest))));
  az_us : p_unsat p' = p_unsat p;
  az_cb : CB n cb';
  az_enq : forall v, enq cb' v <-> enq cb v \/ exists l, In l (slits (skipn target (t_steps (p_trail p)))) /\ v = vidx l;
  az_ph : cb_phases cb' = save_phases (cb_phases cb) (slits (skipn target (t_steps (p_trail p)))) }.

(** What the analysis did besides: the clauses and variables bumped, the header of
    the new clause, and the activities afterwards. *)
Record az_trace (n : nat) (es : list lent) (p : prop) (c : conflict) (cb cb' : callbacks) (cl : list N)
    (es1 es' : list lent) (h : long_header) (a : N) (rest : list N) (r : reason) (target : nat)
    (v1 : vsids) (der : list N) (u : step) (k : nat) (V : list N) (B : list cref) : Prop := {
  at_tr : traced n es p c cl (cb_vsids cb) v1 der u k V B;
  at_a : a = neg (s_lit u);
  at_rest : incl rest der;
  at_es : es1 = bump_all (t_steps (p_trail p)) B es;
  at_h : match rest with
         | _ :: _ :: _ => h = lh_set_glue lh_new_learned (N.of_nat (length (levels (firstn target (t_steps (p_trail p))) rest))) /\
             exists c, r = RLong c /\ es' = es1 ++ [(c, h, a :: rest)]
         | _ => True end;
  at_val : h_values (vs_activity (cb_vsids cb')) = h_values (vs_activity (vsids_decay v1));
  at_inc : vs_increment (cb_vsids cb') = vs_increment (vsids_decay v1) }.

Lemma analyze_full n es p dbg cx an c cb : PI n es p -> 1 <= decision_level (p_trail p) -> AN an -> CB n cb -> conf_ok n es p c ->
  exists cl, conflict_lits (p_long p) c = Ret cl /\
  ((analyze_conflict dbg cx an p c cb = Panic PFull /\ afull (p_long p)) \/
   exists cx' an' p' cb' es1 es' h a rest r level target,
     analyze_conflict dbg cx an p c cb = Ret (cx', an', p', cb') /\
     analyzed n es p cx cb cl cx' an' p' cb' es1 es' h a rest r level target /\
     exists v1 der u k V B, az_trace n es p c cb cb' cl es1 es' h a rest r target v1 der u k V B).
Proof.
  intros HP Hd HA HC Hc. pose proof (pi_tr _ _ _ _ HP) as HT. unfold analyze_conflict.
  destruct (Nat.eqb_spec (decision_level (p_trail p)) 0) as [G|_]; [lia|]. cbn [negb].
  destruct (derive_exact n es p an c cb HP Hd HA HC Hc) as (cl & p1 & an1 & cb1 & der & u & k & V & B & E1 & Ecl & HS & HCB & HA1 & HG1 & Hder & HD & HTC).
  remember (bump_all (t_steps (p_trail p)) B es) as es1 eqn:Ees1.
  exists cl. split; auto. rewrite E1. cbn [bind].
  destruct (cb_analyzed_ok n cb1 (proj1 HCB)) as (B1 & B2 & B3). set (cb2 := cb_analyzed_conflict cb1) in *.
  assert (Ecb2 : cb_vsids cb2 = vsids_decay (cb_vsids cb1)) by reflexivity. clearbody cb2.
  pose proof (PS_trail _ _ _ _ _ HS) as Et. pose proof (ps_pi _ _ _ _ _ HS) as HP1.
  pose proof (do_u _ _ _ _ _ HD) as (iu & Eu & Lu). pose proof (do_lev _ _ _ _ _ HD) as Du. pose proof (do_rest _ _ _ _ _ HD) as Dr.
  pose proof (do_nd _ _ _ _ _ HD) as Dn. pose proof (do_imp _ _ _ _ _ HD) as Di. clear HD.
  set (ss := t_steps (p_trail p)) in *. set (d := decision_level (p_trail p)) in *.
  assert (Hlu : slev ss (s_lit u) = d) by (unfold ss, d; rewrite (tr_slev n _ HT _ _ Eu); auto).
  assert (Hinu : In (s_lit u) (slits ss)) by (apply in_slits; eauto).
  set (a := neg (s_lit u)) in *.
  (* the clause after minimization *)
  assert (HM : exists level rest m', minimize_derived_clause an1 p1 = Ret (level, an_set_min (an_set_derived an1 (a :: rest)) m') /\ MC m' /\
     level < d /\ (forall x, In x rest -> In (neg x) (slits ss) /\ slev ss (neg x) <= level) /\
     match rest with [] => level = 0 | b :: _ => slev ss (neg b) = level end /\ NoDup (a :: rest) /\ learned_from es ss cl (a :: rest) /\ incl rest der).
  { unfold minimize_derived_clause. rewrite Hder. destruct der as [|x0 der0].
    - cbn [app length Nat.ltb Nat.leb]. exists 0, [], (an_min an1). split.
      + destruct an1. cbn in *. subst. reflexivity.
      + split; [apply HA1|]. split; [lia|]. split; [intros x []|]. split; auto. split; [constructor; [tauto|constructor]|]. split; [exact Di|]. intros x [].
    - rewrite app_length. cbn [length]. destruct (Nat.ltb_spec 1 (S (length der0) + 1)) as [_|G]; [|lia].
      remember (x0 :: der0) as der eqn:Ed.
      destruct (minimize_ok n es1 p1 HP1 (an_min an1) der (s_lit u)) as (level & b & kept & rem & m' & Em & G1 & G2 & G3 & G4 & G5 & G6 & _).
      + apply HA1.
      + subst; discriminate.
      + auto.
      + rewrite Et. auto.
      + rewrite Et. auto.
      + rewrite Et. auto.
      + fold a in Em. rewrite Em. cbn [bind]. rewrite Et in G3, G4, G5. fold ss in G3, G5. fold d in G4.
        assert (Hsub : forall x, In x (b :: kept) -> In x der).
        { intros x Hx. eapply Permutation_in; [apply Permutation_sym; exact G2|]. cbn [In] in *. rewrite in_app_iff. tauto. }
        exists level, (b :: kept), m'. split; auto. split; auto. split; [lia|]. split; [|split; [auto|split; [|split; [|exact Hsub]]]].
        * intros x Hx. destruct (Dr x (Hsub x Hx)) as [X1 X2]. split; auto. destruct Hx as [<-|Hx]; [lia|auto].
        * assert (ND : NoDup (b :: kept)).
          { apply (Permutation_NoDup G2) in Dn. change (b :: kept ++ rem) with ((b :: kept) ++ rem) in Dn.
            apply NoDup_app_iff in Dn. apply Dn. }
          apply NoDup_cons_iff. split; auto. intro Q. destruct (Dr a (Hsub a Q)) as [_ X]. unfold a in X. rewrite neg_neg in X. lia.
        * intros U HU Hx. apply (Di U HU). intros x Hi. apply in_app_or in Hi as [Hi|[<-|[]]]; [|apply Hx; left; auto].
          specialize (G6 x Hi). unfold imp in G6. rewrite Et in G6. fold ss in G6. apply G6.
          -- eapply closed_ESH; [apply HS|]; auto.
          -- intros y Hy. apply Hx. right. auto. }
  destruct HM as (level & rest & m' & Em & HMC & Hlt & Hrest & Hb & Hnd & Hrup & Hincl).
  rewrite Em. cbn [bind]. set (an2 := an_set_min _ _) in *.
  destruct (backtrack_ok n dbg p1 level cb2) as (target & ti & v' & cb' & Etg & Eb & HTb & HVb & HCb & _ & Henq & Hval & Hinc & Hph & _);
    [rewrite Et; auto|apply HP1|auto|rewrite Et; auto|].
  rewrite Eb. cbn [bind]. set (p2 := p_set_vt p1 v' (t_back (p_trail p1) level target ti)) in *.
  assert (HP2 : PI n es1 p2) by (apply PI_back; auto).
  assert (Ess2 : t_steps (p_trail p2) = firstn target ss) by (unfold p2; cbn; rewrite Et; auto).
  assert (Eds2 : t_decisions (p_trail p2) = firstn (level + 1) (t_decisions (p_trail p))) by (unfold p2; cbn; rewrite Et; auto).
  assert (Edl : decision_level (p_trail p2) = level).
  { unfold decision_level. rewrite Eds2, firstn_length. unfold d, decision_level in Hlt. lia. }
  rewrite Et in Etg.
  assert (Hinb : forall x, In x (slits (firstn target ss)) <-> In x (slits ss) /\ slev ss x <= level).
  { intro x. apply (back_in n (p_trail p) level target HT Etg). }
  assert (Ha : In (neg a) (slits ss)) by (unfold a; rewrite neg_neg; auto).
  assert (Hal : slev ss (neg a) = d) by (unfold a; rewrite neg_neg; auto).
  assert (Hf2 : falsified (firstn target ss) rest). { intros x Hx. apply Hinb. apply Hrest; auto. }
  destruct (learn_ok n es1 p2 dbg HP2 cx an2 a rest) as [[EL HF]|(es' & p' & h & r & EL & L1 & L2 & L3 & L4 & L5 & L6 & L7 & L8 & L9 & L10)].
  - apply (falsified_vidx n es p a HP Ha).
  - rewrite Ess2. intro Q. apply Hinb in Q as [Q _]. eapply VR_cons; [apply (pi_vr _ _ _ _ HP)|exact Q|exact Ha].
  - rewrite Ess2. intro Q. apply Hinb in Q as [_ Q]. lia.
  - rewrite Ess2. auto.
  - rewrite Ess2, Edl. destruct rest as [|b rest']; auto. unfold ss. rewrite back_slev; [exact Hb|]. apply Hf2. simpl; auto.
  - apply HA1.
  - rewrite Edl. cbn. fold d in HG1. lia.
  - reflexivity.
  - left. rewrite EL. split; [reflexivity|]. destruct HF as [HF|HF].
    + unfold afull in *. apply derive_size in E1. rewrite <- E1. exact HF.
    + exfalso. assert (HB : length (a :: rest) <= n).
      { rewrite <- (map_length vidx). rewrite <- (seq_length n 0). apply NoDup_incl_length.
        - assert (ND : NoDup (map neg (a :: rest))). { apply FinFun.Injective_map_NoDup; auto. intros x y Exy. rewrite <- (neg_neg x), <- (neg_neg y). congruence. }
          rewrite (map_ext vidx (fun x => vidx (neg x))) by (intro x; symmetry; apply vidx_neg). rewrite <- (map_map neg vidx).
          eapply vidx_cons_nodup; [apply (pi_vr _ _ _ _ HP)|exact ND|]. intros y Hy. apply in_map_iff in Hy as (x & <- & [<-|Hx]); auto. apply Hrest; auto.
        - intros v Hv. apply in_map_iff in Hv as (x & <- & Hx). apply in_seq. split; [lia|]. apply (falsified_vidx n es p x HP).
          destruct Hx as [<-|Hx]; auto. apply Hrest; auto. }
      pose proof (pi_n _ _ _ _ HP). unfold HEADER_MASK in HF. lia.
  - right. rewrite EL. cbn [bind]. eexists _, an2, p', cb', es1, es', h, a, rest, r, level, target. split; [reflexivity|].
    assert (HTR : az_trace n es p c cb cb' cl es1 es' h a rest r target (cb_vsids cb1) der u k V B).
    { constructor; auto; try congruence. rewrite Ess2 in L10. exact L10. }
    split; [|exists (cb_vsids cb1), der, u, k, V, B; exact HTR].
    rewrite Ess2, Edl in L6. rewrite Et in Henq, Hph. fold ss in Henq, Hph.
    assert (Hus : p_unsat p2 = p_unsat p) by (unfold p2; rewrite (ps_p _ _ _ _ _ HS); reflexivity).
    assert (Hbi : p_binary p2 = p_binary p) by (unfold p2; rewrite (ps_p _ _ _ _ _ HS); reflexivity).
    rewrite Hbi in L2.
    constructor; auto; try apply HS.
    + constructor; cbn; try apply HA1. auto.
    + congruence.
    + rewrite L8. unfold p2. cbn. rewrite Et. auto.
    + congruence.
    + intro v. rewrite Henq, B2. rewrite (proj1 (proj2 HCB)). tauto.
    + rewrite Hph, B3. rewrite (proj2 (proj2 HCB)). auto.
Qed.

Lemma analyze_ok n es p dbg cx an c cb : PI n es p -> 1 <= decision_level (p_trail p) -> AN an -> CB n cb -> conf_ok n es p c ->
  exists cl, conflict_lits (p_long p) c = Ret cl /\
  ((analyze_conflict dbg cx an p c cb = Panic PFull /\ afull (p_long p)) \/
   exists cx' an' p' cb' es1 es' h a rest r level target,
     analyze_conflict dbg cx an p c cb = Ret (cx', an', p', cb') /\
     analyzed n es p cx cb cl cx' an' p' cb' es1 es' h a rest r level target).
Proof.
  intros HP Hd HA HC Hc. destruct (analyze_full n es p dbg cx an c cb HP Hd HA HC Hc) as (cl & E & [H|H]); exists cl; split; auto.
  destruct H as (cx' & an' & p' & cb' & es1 & es' & h & a & rest & r & level & target & E1 & H1 & _). right. eauto 15.
Qed.
