(** The invariant of the propagation state. *)
From Coq Require Import NArith List Bool Arith Lia Permutation Sorted ZifyN ZifyNat ZifyBool.
From Verif Require Import Model_Base Model_Lit Model_PartialAssignment Model_Header Model_Arena Model_Prop
  Spec Drivers_Arena Proof_Base Proof_PA Proof_Lit Proof_Header Proof_Arena Proof_ArenaHist Proof_Long Proof_Trail.
Import ListNotations.

Definition bin (b : list (list N)) (x : N) : list N := nth (cidx x) b [].
Definition wfun (bl : list (list watch)) (x : N) : list watch := nth (cidx x) bl [].
Definition wcnt (c : nat) (ws : list watch) : nat := count_occ Nat.eq_dec (map w_clause ws) c.
Definition one (b : bool) : nat := if b then 1 else 0.

Definition LL (n : nat) (es : list lent) : Prop :=
  forall c h l, In (c, h, l) es -> l <> [] ->
    3 <= length l /\ N.to_nat (lh_search_pos h) + 2 < length l /\ (forall x, In x l -> vidx x < n).

Record BI (n : nat) (b : list (list N)) : Prop := {
  bi_len : length b = 2 * n;
  bi_sym : forall x y, vidx x < n -> In y (bin b x) -> vidx y < n /\ In x (bin b y) }.

Record WF (n : nat) (es : list lent) (W : N -> list watch) : Prop := {
  wf_ref : forall x w, vidx x < n -> In w (W x) -> vidx (w_blocking w) < n /\
    exists h l, In (w_clause w, h, l) es /\ (l <> [] -> In (w_blocking w) l);
  wf_cnt : forall c h a b r, In (c, h, a :: b :: r) es -> forall x, vidx x < n ->
    wcnt c (W x) = one (x =? a)%N + one (x =? b)%N }.

Definition before (ss : list step) (i : nat) (l : N) : Prop := exists j, lpos ss l = Some j /\ j < i.

Definition RI (es : list lent) (b : list (list N)) (ss : list step) : Prop :=
  forall i s, nth_error ss i = Some s ->
    match s_reason s with
    | RDecision => True
    | RUnit => s_level s = 0
    | RBinary l => In l (bin b (s_lit s)) /\ before ss i (neg l)
    | RLong c => exists h r, In (c, h, s_lit s :: r) es /\ forall x, In x r -> before ss i (neg x)
    end.

(** Some literal of [cl] is true since the level of [l] or earlier. *)
Definition below (ss : list step) (l : N) (cl : list N) : Prop :=
  exists t, In t cl /\ In t (slits ss) /\ slev ss t <= slev ss l.

Definition PL (es : list lent) (ss : list step) (q : nat) : Prop :=
  forall c h a b r, In (c, h, a :: b :: r) es -> forall w, w = a \/ w = b ->
    In (neg w) (slits (firstn q ss)) -> below ss (neg w) (a :: b :: r).

Definition PB (n : nat) (b : list (list N)) (ss : list step) (q : nat) : Prop :=
  forall x y, vidx x < n -> In y (bin b x) -> In (neg x) (slits (firstn q ss)) ->
    In y (slits ss) /\ slev ss y <= slev ss (neg x).

Record PIw (W : N -> list watch) (n : nat) (es : list lent) (p : prop) : Prop := {
  pi_n : (N.of_nat n <= 1073741824)%N;
  pi_tr : TR n (p_trail p);
  pi_vr : VR n (p_values p) (slits (t_steps (p_trail p)));
  pi_lr : LR (p_long p) es;
  pi_ll : LL n es;
  pi_bi : BI n (p_binary p);
  pi_ri : RI es (p_binary p) (t_steps (p_trail p));
  pi_en : ws_enabled (p_watches p) = true;
  pi_wl : length (ws_by_lit (p_watches p)) = 2 * n;
  pi_wf : WF n es W;
  pi_pl : PL es (t_steps (p_trail p)) (t_propagated (p_trail p));
  pi_pb : PB n (p_binary p) (t_steps (p_trail p)) (t_propagated (p_trail p)) }.

Definition PI (n : nat) (es : list lent) (p : prop) : Prop := PIw (wfun (ws_by_lit (p_watches p))) n es p.

(** Clause database entries up to the order of literals. *)
Definition same_hdr (h h' : long_header) : Prop :=
  lh_redundant h' = lh_redundant h /\ lh_protected h' = lh_protected h.
Definition ESR (es es' : list lent) : Prop :=
  Forall2 (fun e e' => le_ref e' = le_ref e /\ Permutation (le_lits e) (le_lits e') /\
                       same_hdr (le_hdr e) (le_hdr e')) es es'.

Lemma ESR_refl es : ESR es es.
Proof. induction es; constructor; auto. repeat split; auto. Qed.
Lemma ESR_trans es1 es2 es3 : ESR es1 es2 -> ESR es2 es3 -> ESR es1 es3.
Proof.
  intro F. revert es3. induction F as [|x y l1 l2 Hx F IH]; intros es3 G; inversion G; subst; constructor; auto; [|apply IH; auto].
  destruct Hx as (A & B & C & D). destruct H1 as (A' & B' & C' & D'). repeat split; try congruence.
  eapply Permutation_trans; eauto.
Qed.

Lemma ESR_upd es c h l h' l' : NoDup (map le_ref es) -> In (c, h, l) es -> Permutation l l' -> same_hdr h h' ->
  ESR es (les_upd c h' l' es).
Proof.
  intros ND Hi HP Hh. unfold les_upd. 
  induction es as [|e r IH]; simpl; constructor.
  - simpl in ND. destruct (Nat.eqb_spec (le_ref e) c) as [E|E].
    + inversion ND as [|? ? N1 N2]; subst. destruct Hi as [->|Hi].
      * unfold le_ref, le_lits, le_hdr. simpl. auto.
      * exfalso. apply N1. apply in_map_iff. exists (le_ref e, h, l). auto.
    + split; auto. split; auto. split; auto.
  - simpl in ND. inversion ND as [|? ? N1 N2]; subst. destruct Hi as [->|Hi]; [|apply IH; auto].
    replace (map _ r) with r; [apply ESR_refl|].
    unfold le_ref in N1 at 1. simpl in N1. clear -N1. induction r as [|x r IH]; simpl; auto. simpl in N1.
    destruct (Nat.eqb_spec (le_ref x) c); [exfalso; auto|]. f_equal. apply IH. tauto.
Qed.

Lemma ESR_in es es' c h l : ESR es es' -> In (c, h, l) es ->
  exists h' l', In (c, h', l') es' /\ Permutation l l' /\ same_hdr h h'.
Proof.
  intro F. induction F as [|[[c1 h1] l1] [[c2 h2] l2] r1 r2 Hx F IH]; intros Hi; [contradiction|].
  unfold le_ref, le_lits, le_hdr in Hx. simpl in Hx. destruct Hx as (A & B & C). subst.
  destruct Hi as [E|Hi].
  - inv E. exists h2, l2. split; [left; auto|auto].
  - destruct (IH Hi) as (h' & l' & G1 & G2). exists h', l'. split; [right; auto|auto].
Qed.
Lemma ESR_in_rev es es' c h' l' : ESR es es' -> In (c, h', l') es' ->
  exists h l, In (c, h, l) es /\ Permutation l l' /\ same_hdr h h'.
Proof.
  intro F. induction F as [|[[c1 h1] l1] [[c2 h2] l2] r1 r2 Hx F IH]; intros Hi; [contradiction|].
  unfold le_ref, le_lits, le_hdr in Hx. simpl in Hx. destruct Hx as (A & B & C). subst.
  destruct Hi as [E|Hi].
  - inv E. exists h1, l1. split; [left; auto|auto].
  - destruct (IH Hi) as (h & l & G1 & G2). exists h, l. split; [right; auto|auto].
Qed.

(** ** Consequences of appending steps *)
Lemma before_app ss s i l : before ss i l -> s_lit s <> l -> before (ss ++ [s]) i l.
Proof.
  intros (j & E & L) N. exists j. split; auto. rewrite lpos_app. cbn [lpos].
  destruct (N.eqb_spec (s_lit s) l); [contradiction|]. auto.
Qed.

Lemma before_new ss s l : In l (slits ss) -> s_lit s <> l -> before (ss ++ [s]) (length ss) l.
Proof.
  intros Hi N. destruct (lpos_in _ _ Hi) as [j E]. exists j. split; [|eapply lpos_lt; eauto].
  rewrite lpos_app. cbn [lpos]. destruct (N.eqb_spec (s_lit s) l); [contradiction|]. auto.
Qed.

Lemma before_in ss i l : before ss i l -> In l (slits ss).
Proof. intros (j & E & _). eapply lpos_In; eauto. Qed.

Lemma below_app ss ext l cl : In l (slits ss) -> below ss l cl -> below (ss ++ ext) l cl.
Proof.
  intros Hl (t & A & B & C). exists t. split; auto. split; [rewrite map_app; apply in_or_app; auto|].
  rewrite !slev_app; auto.
Qed.

Lemma below_perm ss l cl cl' : Permutation cl cl' -> below ss l cl -> below ss l cl'.
Proof. intros P (t & A & B). exists t. split; auto. eapply Permutation_in; eauto. Qed.

Lemma in_firstn {A} (x : A) k l : In x (firstn k l) -> In x l.
Proof. intro H. rewrite <- (firstn_skipn k l). apply in_or_app. auto. Qed.
Lemma in_slits_firstn l k ss : In l (slits (firstn k ss)) -> In l (slits ss).
Proof. rewrite <- firstn_map. apply in_firstn. Qed.

Lemma RI_push es b ss s : RI es b ss -> ~ In (s_lit s) (slits ss) ->
  match s_reason s with
  | RDecision => True
  | RUnit => s_level s = 0
  | RBinary l => In l (bin b (s_lit s)) /\ In (neg l) (slits ss)
  | RLong c => exists h r, In (c, h, s_lit s :: r) es /\ forall x, In x r -> In (neg x) (slits ss)
  end -> RI es b (ss ++ [s]).
Proof.
  intros H Hn Hs i s' E. apply nth_snoc in E as [[L E]|[-> ->]].
  - specialize (H i s' E). destruct (s_reason s'); auto.
    + destruct H as [A B]. split; auto. apply before_app; auto. intro G. apply Hn. rewrite G. eapply before_in; eauto.
    + destruct H as (h & r & A & B). exists h, r. split; auto. intros x Hx. apply before_app; auto.
      intro G. apply Hn. rewrite G. eapply before_in; eauto.
  - destruct (s_reason s); auto.
    + destruct Hs as [A B]. split; auto. apply before_new; auto. congruence.
    + destruct Hs as (h & r & A & B). exists h, r. split; auto. intros x Hx. apply before_new; auto.
      intro G. apply Hn. rewrite G. auto.
Qed.

Lemma firstn_app_le {A} k (a b : list A) : k <= length a -> firstn k (a ++ b) = firstn k a.
Proof. intro H. rewrite firstn_app. replace (k - length a) with 0 by lia. simpl. apply app_nil_r. Qed.

Lemma PL_app es ss ext q : PL es ss q -> q <= length ss -> PL es (ss ++ ext) q.
Proof.
  intros H L c h a b r Hi w Hw Hn. rewrite firstn_app_le in Hn by auto.
  apply below_app; [eapply in_slits_firstn; eauto|]. eapply H; eauto.
Qed.

Lemma PB_app n b ss ext q : PB n b ss q -> q <= length ss -> PB n b (ss ++ ext) q.
Proof.
  intros H L x y Hx Hi Hn. rewrite firstn_app_le in Hn by auto.
  destruct (H x y Hx Hi Hn) as [A B]. split; [rewrite map_app; apply in_or_app; auto|].
  rewrite !slev_app; auto. eapply in_slits_firstn; eauto.
Qed.

(** ** Appending a propagated step to the whole state *)
Definition why (es : list lent) (b : list (list N)) (ss : list step) (s : step) : Prop :=
  match s_reason s with
  | RBinary l => In l (bin b (s_lit s)) /\ In (neg l) (slits ss)
  | RLong c => exists h r, In (c, h, s_lit s :: r) es /\ forall x, In x r -> In (neg x) (slits ss)
  | _ => False
  end.

Definition p_push (p : prop) (v : list N) (s : step) : prop := p_set_vt p v (t_push (p_trail p) s).

Lemma PIw_push W n es p v s : PIw W n es p -> vidx (s_lit s) < n ->
  ~ In (s_lit s) (slits (t_steps (p_trail p))) -> ~ In (neg (s_lit s)) (slits (t_steps (p_trail p))) ->
  s_level s = decision_level (p_trail p) -> why es (p_binary p) (t_steps (p_trail p)) s ->
  VR n v (slits (t_steps (p_trail p) ++ [s])) -> PIw W n es (p_push p v s).
Proof.
  intros H Hv N1 N2 Hl Hw HV. pose proof (tr_q _ _ (pi_tr _ _ _ _ H)) as Q.
  constructor; unfold p_push, p_set_vt; cbn [p_trail p_values p_long p_binary p_watches]; try apply H; auto.
  - apply TR_push with (dbg := true); auto; [apply H|split; auto|].
    unfold why in Hw. destruct (s_reason s); try contradiction; discriminate.
  - cbn [t_steps t_push]. apply RI_push; [apply H|auto|]. unfold why in Hw. destruct (s_reason s); try contradiction; auto.
  - cbn [t_steps t_push t_propagated]. apply PL_app; [apply H|auto].
  - cbn [t_steps t_push t_propagated]. apply PB_app; [apply H|auto].
Qed.

(** Extension of the trail during propagation. *)
Definition pext (p p' : prop) : Prop :=
  (exists ext, t_steps (p_trail p') = t_steps (p_trail p) ++ ext /\
     Forall (fun s => s_reason s <> RUnit /\ s_reason s <> RDecision) ext) /\
  t_decisions (p_trail p') = t_decisions (p_trail p) /\ p_unsat p' = p_unsat p /\ p_binary p' = p_binary p.

Lemma pext_refl p : pext p p.
Proof. split; [|auto]. exists []. rewrite app_nil_r. auto. Qed.
Lemma pext_trans p1 p2 p3 : pext p1 p2 -> pext p2 p3 -> pext p1 p3.
Proof.
  intros ((e1 & A & F1) & B & C & D) ((e2 & A' & F2) & B' & C' & D'). split.
  - exists (e1 ++ e2). rewrite A', A, app_assoc. split; auto. apply Forall_app; auto.
  - repeat split; congruence.
Qed.
Lemma pext_in p p' l : pext p p' -> In l (slits (t_steps (p_trail p))) -> In l (slits (t_steps (p_trail p'))).
Proof. intros ((e & A & _) & _) Hi. rewrite A, map_app. apply in_or_app. auto. Qed.
Lemma pext_slev p p' l : pext p p' -> In l (slits (t_steps (p_trail p))) ->
  slev (t_steps (p_trail p')) l = slev (t_steps (p_trail p)) l.
Proof. intros ((e & A & _) & _) Hi. rewrite A. apply slev_app; auto. Qed.
Lemma pext_dl p p' : pext p p' -> decision_level (p_trail p') = decision_level (p_trail p).
Proof. intros (_ & A & _). unfold decision_level. rewrite A. reflexivity. Qed.
Lemma pext_push p v s : s_reason s <> RUnit -> s_reason s <> RDecision -> pext p (p_push p v s).
Proof. intros A B. split; [|auto]. exists [s]. split; [reflexivity|]. constructor; auto. Qed.

(** A conflict: a stored clause, all false, one literal at the current level. *)
Definition stored (n : nat) (es : list lent) (b : list (list N)) (cl : list N) : Prop :=
  (exists c h, In (c, h, cl) es /\ cl <> []) \/ (exists x y, cl = [x; y] /\ vidx x < n /\ In y (bin b x)).
Definition falsified (ss : list step) (cl : list N) : Prop := forall x, In x cl -> In (neg x) (slits ss).

Definition conf_ok (n : nat) (es : list lent) (p : prop) (c : conflict) : Prop :=
  exists cl, conflict_lits (p_long p) c = Ret cl /\
    match c with
    | CBinary x y => vidx x < n /\ In y (bin (p_binary p) x)
    | CLong c => exists h, In (c, h, cl) es /\ cl <> []
    end /\
    falsified (t_steps (p_trail p)) cl /\
    exists x, In x cl /\ slev (t_steps (p_trail p)) (neg x) = decision_level (p_trail p).
