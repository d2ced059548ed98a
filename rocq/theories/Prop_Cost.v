(** C82: clause minimization takes linear time. *)
From Coq Require Import NArith List Bool Arith Lia Permutation ZifyN ZifyNat ZifyBool.
From Verif Require Import Model_Base Model_Lit Model_PartialAssignment Model_Header Model_Arena Model_Prop
  Model_Heap Model_Vsids Model_Analysis Model_Cost Model_Luby Model_Solver Spec Proof_Base Proof_PA Proof_Lit
  Proof_Long Proof_Trail Proof_Backtrack Proof_Inv Proof_Propagate Proof_Gc Proof_Glue Proof_Analysis Proof_Minimize
  Proof_Solver Proof_Search Drivers_Solver Drivers_Search Proof_Visited Proof_Cost Examples_Solver Prop_Prop Prop_Analysis.
Import ListNotations.

(** The sizes of the reasons: for every step of the trail the number of literals
    of its reason besides the assigned one; none for a decision. *)
Definition reason_size (p : prop) (s : step) (n : nat) : Prop :=
  match s_reason s with
  | RDecision => n = 0
  | _ => exists rest, reason_rest p s rest /\ n = length rest
  end.
Definition reason_sizes (p : prop) (ns : list nat) : Prop := Forall2 (reason_size p) (t_steps (p_trail p)) ns.

(** ** C82 *)
(** Counting changes no result. *)
Theorem counted_minimize an p r :
  minimize_derived_clause an p = Ret r <-> exists work, minimize_derived_clause_n an p = Ret (r, work).
Proof.
  rewrite <- er_derived. unfold erase. destruct (minimize_derived_clause_n an p) as [[a k]| |]; cbn [bind]; split; try discriminate.
  - intro E. inversion E; eauto.
  - intros (w & E). inversion E; auto.
  - intros (w & E). discriminate.
  - intros (w & E). discriminate.
Qed.

Lemma acyclic_PI n es p : PI n es p -> forall i s rl l j, nth_error (t_steps (p_trail p)) i = Some s ->
  reason_lits (p_long p) (s_reason s) = Ret rl -> In l rl -> trail_index (p_trail p) l = Ret j -> j < i.
Proof.
  intros HP i s rl l j Ei Er Hl Ej. destruct (s_reason s) as [| |b|c] eqn:Es; [cbn in Er; inversion Er; subst; destruct Hl| | |];
  (destruct (reason_lits_ok _ _ _ _ _ HP Ei) as (rl' & Er' & _ & Hb); [congruence|]; rewrite Es, Er in Er'; inversion Er'; subst rl';
   destruct (Hb l Hl) as (j' & B1 & B2);
   destruct (tr_index_neg _ _ (pi_tr _ _ _ _ HP) l) as (j2 & s2 & A1 & A2 & _); [eapply lpos_In; eauto|];
   rewrite Ej in A1; inversion A1; subst j2; rewrite A2 in B1; inversion B1; subst; auto).
Qed.
Lemma index_nodup n p cl : TR n (p_trail p) -> NoDup cl -> (forall x, In x cl -> In (neg x) (slits (t_steps (p_trail p)))) ->
  forall is, mapM (trail_index (p_trail p)) cl = Ret is ->
    NoDup is /\ length is = length cl /\ forall i, In i is -> i < length (t_steps (p_trail p)).
Proof.
  intros HT ND Hf is E. apply mapM_Forall2 in E. induction E as [|x i cl is Ei E IH]; [split; [constructor|split; [auto|intros i []]]|].
  inversion ND as [|? ? Hx ND']; subst. destruct IH as (I1 & I2 & I3); [auto|intros; apply Hf; right; auto|].
  destruct (tr_index_neg _ _ HT x (Hf x (or_introl eq_refl))) as (j & s & A1 & A2 & A3 & _). rewrite Ei in A1. inversion A1; subst j.
  split; [|split; [cbn; auto|intros j [<-|Hj]; [eapply lpos_lt; eauto|auto]]].
  constructor; auto. intro Hi.
  assert (Q : exists y, In y cl /\ trail_index (p_trail p) y = Ret i).
  { clear -E Hi. induction E as [|y j cl is Ej E IH]; [destruct Hi|]. destruct Hi as [->|Hi]; [exists y; split; [left|]; auto|].
    destruct (IH Hi) as (z & Z1 & Z2). exists z. split; [right|]; auto. }
  destruct Q as (y & Y1 & Y2). destruct (tr_index_neg _ _ HT y (Hf y (or_intror Y1))) as (j & s' & B1 & B2 & _).
  rewrite Y2 in B1. inversion B1; subst j. apply Hx. rewrite (lpos_neg_inj p x y i); auto.
Qed.

Lemma sizes_exist n es p : PI n es p -> exists ns, reason_sizes p ns /\
  list_sum ns = fold_right (fun s a => match reason_lits (p_long p) (s_reason s) with Ret ls => length ls | _ => 0 end + a) 0 (t_steps (p_trail p)).
Proof.
  intro HP. unfold reason_sizes.
  assert (G : forall l, (forall s, In s l -> In s (t_steps (p_trail p))) -> exists ns, Forall2 (reason_size p) l ns /\
    list_sum ns = fold_right (fun s a => match reason_lits (p_long p) (s_reason s) with Ret ls => length ls | _ => 0 end + a) 0 l); [|apply G; auto].
  induction l as [|s l IH]; intro H; [exists []; split; [constructor|reflexivity]|].
  destruct IH as (ns & N1 & N2); [intros; apply H; right; auto|].
  assert (Hs : In s (t_steps (p_trail p))) by (apply H; left; auto).
  assert (Q : exists k, reason_size p s k /\ match reason_lits (p_long p) (s_reason s) with Ret ls => length ls | _ => 0 end = k).
  { pose proof Hs as Hs'. apply In_nth_error in Hs' as [i Ei]. unfold reason_size. destruct (s_reason s) as [| |b|c] eqn:Er; [exists 0; auto| | |];
    (destruct (reason_lits_ok _ _ _ _ _ HP Ei) as (rl & R1 & R2 & _); [congruence|]; rewrite Er in R1; rewrite R1; exists (length rl); split; auto;
     exists rl; split; auto; apply (rsn_reason _ _ _ HP); auto). }
  destruct Q as (k & K1 & K2). exists (k :: ns). split; [constructor; auto|]. cbn [list_sum fold_right]. rewrite K2. unfold list_sum in N2. rewrite <- N2. reflexivity.
Qed.

(** The work of minimizing a first-UIP clause is linear in the number of steps on
    the trail and the sizes of their reasons. *)
Theorem minimize_linear select dbg F cx se cx1 p1 c p2 an2 cb2 :
  select_ok (fun _ _ => True) select -> visited select dbg F cx se ->
  propagate dbg cx (se_prop se) = Ret (cx1, p1, Some c) -> decision_level (p_trail p1) <> 0 ->
  derive_1uip_clause (se_analysis se) p1 c (search_cb se) = Ret (p2, an2, cb2) ->
  exists r work ns, minimize_derived_clause_n an2 p2 = Ret (r, work) /\ reason_sizes p2 ns /\
    work <= 8 * list_sum ns + 7 * length ns.
Proof.
  intros Hs HV E Hd ED. destruct (conflict_state _ _ _ _ _ _ _ _ Hs HV E) as (es & HP & HA & HC & Hc).
  destruct (derive_ok _ es p1 (se_analysis se) c (search_cb se) HP ltac:(lia) HA HC Hc) as (cl & p3 & es2 & an4 & cb3 & der & u & E2 & Ecl & HS & HCB & HA2 & HG & Eder & HD).
  rewrite ED in E2. inversion E2; subst p3 an4 cb3. destruct (do_u _ _ _ _ _ HD) as (iu & Eu & Lu).
  pose proof (PS_trail _ _ _ _ _ HS) as Et. pose proof (ps_pi _ _ _ _ _ HS) as HP2.
  destruct (sizes_exist _ _ _ HP2) as (ns & N1 & N2).
  unfold minimize_derived_clause_n. destruct (Nat.ltb_spec 1 (length (an_derived an2))) as [L|L].
  - assert (R : exists r, minimize_derived_clause an2 p2 = Ret r).
    { unfold minimize_derived_clause. rewrite Eder in *. rewrite app_length in L. cbn [length] in L. destruct (Nat.ltb_spec 1 (length (der ++ [neg (s_lit u)]))) as [_|G]; [|rewrite app_length in G; cbn in G; lia].
      destruct (minimize_ok _ es2 p2 HP2 (an_min an2) der (s_lit u)) as (level & b & kept & rem & m' & Em & _); [apply HA2|intros ->; cbn in L; lia|apply HD|rewrite Et; apply HD|rewrite Et; apply in_slits; eauto|rewrite Et; rewrite (tr_slev _ _ (pi_tr _ _ _ _ HP) _ _ Eu); apply HD|].
      rewrite Em. cbn [bind]. eauto. }
    destruct R as (r & R). apply counted_minimize in R as (work & R). exists r, work, ns. pose proof R as R'. unfold minimize_derived_clause_n in R'.
    destruct (Nat.ltb_spec 1 (length (an_derived an2))) as [_|G]; [|lia]. split; auto. split; auto.
    apply bindC_ret in R' as ([[lv cl'] m'] & k1 & k2 & R1 & R2 & ->). inversion R2; subst.
    assert (Hin : forall x, In x (an_derived an2) -> In (neg x) (slits (t_steps (p_trail p2)))).
    { rewrite Eder, Et. intros x Hx. apply in_app_or in Hx as [Hx|[<-|[]]]; [apply (do_rest _ _ _ _ _ HD x Hx)|].
      rewrite neg_neg. apply in_slits. eauto. }
    assert (HND : NoDup (an_derived an2)).
    { rewrite Eder. apply NoDup_app_iff. split; [apply HD|]. split; [constructor; [tauto|constructor]|]. intros x Hx [<-|[]].
      destruct (do_rest _ _ _ _ _ HD _ Hx) as [_ Hk]. rewrite neg_neg, (tr_slev _ _ (pi_tr _ _ _ _ HP) _ _ Eu), (do_lev _ _ _ _ _ HD) in Hk. lia. }
    pose proof (index_nodup _ p2 _ (pi_tr _ _ _ _ HP2) HND Hin) as HI.
    assert (Hk : k1 <= 4 * wsum p2 (length (t_steps (p_trail p2))) + 3 * length (an_derived an2)).
    { eapply minimize_cost; [eapply acyclic_PI; eauto|apply HA2|intros is Ei; apply (HI is Ei)|exact R1]. }
    rewrite (wsum_steps p2 (acyclic_PI _ _ _ HP2)), <- N2 in Hk.
    assert (Hlen : length (an_derived an2) <= length (t_steps (p_trail p2))).
    { destruct (mapM_ok (trail_index (p_trail p2)) (an_derived an2)) as [is Ei].
      { intros x Hx. destruct (tr_index_neg _ _ (pi_tr _ _ _ _ HP2) x (Hin x Hx)) as (j & s & A1 & _). eauto. }
      destruct (HI is Ei) as (I1 & I2 & I3). rewrite <- I2. rewrite <- (seq_length (length (t_steps (p_trail p2))) 0).
      apply NoDup_incl_length; auto. intros i Hi. apply in_seq. specialize (I3 i Hi). lia. }
    assert (Hn : length (t_steps (p_trail p2)) = length ns) by (clear -N1; induction N1; cbn; auto). lia.
  - exists (0, an2), 0, ns. split; auto. split; auto. lia.
Qed.
(** A run in which minimization removes a literal: nine units of work, where four
    steps on the trail have reasons of three literals in all. *)
Example minimize_linear_example :
  let se := sta_search (so_state (at_step min3 2)) in
  match propagate true (so_ctx (at_step min3 2)) (se_prop se) with
  | Ret (_, p1, Some c) => decision_level (p_trail p1) <> 0 /\
      match derive_1uip_clause (se_analysis se) p1 c (search_cb se) with
      | Ret (p2, an2, _) =>
          match minimize_derived_clause_n an2 p2 with
          | Ret (_, work) => work = 9 /\ reason_sizes p2 [0; 1; 0; 2]
          | _ => False
          end
      | _ => False
      end
  | _ => False
  end.
Proof.
  vm_compute. split; [discriminate|]. split; [reflexivity|]. repeat constructor; eexists; repeat split.
  right. exists 3%N, 1%N. split; [reflexivity|]. eexists. split; [reflexivity|]. left. reflexivity.
Qed.

Print Assumptions counted_minimize.
Print Assumptions minimize_linear.
