(** Operations on the propagation state other than propagation keep its
    invariant. *)
From Coq Require Import NArith List Bool Arith Lia Permutation Sorted ZifyN ZifyNat ZifyBool.
From Verif Require Import Model_Base Model_Lit Model_PartialAssignment Model_Header Model_Arena Model_MutScan Model_Prop
  Model_Heap Model_Vsids Model_Analysis Spec Drivers_Arena Drivers_Heap Proof_Base Proof_PA Proof_Lit Proof_Header Proof_Arena
  Proof_ArenaHist Proof_Long Proof_Trail Proof_Backtrack Proof_Inv Proof_Propagate.
Import ListNotations.

(** ** Backtracking *)
Lemma PI_back n es p level target ti v' : PI n es p ->
  nth_error (tl (t_decisions (p_trail p))) level = Some target ->
  TR n (t_back (p_trail p) level target ti) -> VR n v' (slits (firstn target (t_steps (p_trail p)))) ->
  PI n es (p_set_vt p v' (t_back (p_trail p) level target ti)).
Proof.
  intros H Et HT HV. pose proof (pi_tr _ _ _ _ H) as H0.
  destruct (back_target n _ _ _ H0 Et) as [T1 T2].
  assert (Hsub : forall l, In l (slits (firstn target (t_steps (p_trail p)))) ->
    In l (slits (firstn (t_propagated (p_trail p)) (t_steps (p_trail p))))).
  { intros l Hl. rewrite <- firstn_map in *. replace target with (Nat.min target (t_propagated (p_trail p))) in Hl by lia.
    rewrite <- firstn_firstn in Hl. eapply in_firstn; eauto. }
  assert (Hb : forall i l, i < target -> before (t_steps (p_trail p)) i l -> before (firstn target (t_steps (p_trail p))) i l).
  { intros i l Hi (j & E & L). exists j. split; auto. apply (back_lpos n _ level target H0 Et); auto.
    destruct (lpos_some _ _ _ E) as (s & A & B). apply in_slits. exists j, s. split; auto.
    rewrite nth_error_firstn. destruct (Nat.ltb_spec j target); [auto|lia]. }
  constructor; unfold p_set_vt; cbn [p_trail p_values p_long p_binary p_watches t_back t_steps t_propagated]; try apply H; auto.
  - intros i s E. rewrite nth_error_firstn in E. destruct (Nat.ltb_spec i target) as [L|L]; [|discriminate].
    pose proof (pi_ri _ _ _ _ H i s E) as R. destruct (s_reason s); auto.
    + destruct R as [A B]. split; auto.
    + destruct R as (h & r & A & B). exists h, r. split; auto.
  - intros c h a b r Hi w Hw Hn. apply in_slits_firstn in Hn.
    destruct (pi_pl _ _ _ _ H _ _ _ _ _ Hi w Hw (Hsub _ Hn)) as (t & A & B & C).
    exists t. split; auto. assert (D := proj1 (back_in n _ level target H0 Et _) Hn).
    assert (E : In t (slits (firstn target (t_steps (p_trail p))))).
    { apply (back_in n _ level target H0 Et). split; auto. lia. }
    split; auto. rewrite !back_slev by auto. auto.
  - intros x y Hx Hi Hn. apply in_slits_firstn in Hn.
    destruct (pi_pb _ _ _ _ H _ _ Hx Hi (Hsub _ Hn)) as [B C].
    assert (D := proj1 (back_in n _ level target H0 Et _) Hn).
    assert (E : In y (slits (firstn target (t_steps (p_trail p))))).
    { apply (back_in n _ level target H0 Et). split; auto. lia. }
    split; auto. rewrite !back_slev by auto. auto.
Qed.

(** ** Decisions *)
Lemma PI_decide n es p l v' : PI n es p -> vidx l < n ->
  ~ In l (slits (t_steps (p_trail p))) -> ~ In (neg l) (slits (t_steps (p_trail p))) ->
  t_propagated (p_trail p) = length (t_steps (p_trail p)) ->
  VR n v' (slits (t_steps (p_trail p)) ++ [l]) -> PI n es (p_set_vt p v' (t_decide (p_trail p) l)).
Proof.
  intros H Hv N1 N2 Hq HV.
  constructor; unfold p_set_vt; cbn [p_trail p_values p_long p_binary p_watches]; try apply H; auto.
  - apply TR_decide; auto. apply H.
  - cbn [t_decide t_steps]. rewrite map_app. exact HV.
  - cbn [t_decide t_steps]. apply RI_push; [apply H|auto|]. cbn [s_reason]. auto.
  - cbn [t_decide t_steps t_propagated]. apply PL_app; [apply H|lia].
  - cbn [t_decide t_steps t_propagated]. apply PB_app; [apply H|lia].
Qed.

(** ** Header updates *)
Definition ESH (es es' : list lent) : Prop :=
  Forall2 (fun e e' => le_ref e' = le_ref e /\ le_lits e' = le_lits e /\
    lh_redundant (le_hdr e') = lh_redundant (le_hdr e) /\ lh_search_pos (le_hdr e') = lh_search_pos (le_hdr e)) es es'.

Lemma ESH_refl es : ESH es es.
Proof. induction es; constructor; auto. Qed.
Lemma ESH_trans es1 es2 es3 : ESH es1 es2 -> ESH es2 es3 -> ESH es1 es3.
Proof.
  intro F. revert es3. induction F as [|x y l1 l2 Hx F IH]; intros es3 G; inversion G; subst; constructor; auto; [|apply IH; auto].
  destruct Hx as (A & B & C & D). destruct H1 as (A' & B' & C' & D'). repeat split; congruence.
Qed.

Lemma NoDup_map_in {A B} (f : A -> B) l x y : NoDup (map f l) -> In x l -> In y l -> f x = f y -> x = y.
Proof.
  induction l as [|z r IH]; simpl; intros ND Hx Hy E; [contradiction|]. apply NoDup_cons_iff in ND as [N1 N2].
  destruct Hx as [->|Hx], Hy as [->|Hy]; auto.
  - exfalso. apply N1. rewrite E. apply in_map; auto.
  - exfalso. apply N1. rewrite <- E. apply in_map; auto.
Qed.

Lemma ESH_upd es c h l h' : NoDup (map le_ref es) -> In (c, h, l) es ->
  lh_redundant h' = lh_redundant h -> lh_search_pos h' = lh_search_pos h -> ESH es (les_upd c h' l es).
Proof.
  intros ND Hi H1 H2. unfold les_upd, ESH.
  assert (G : forall e, In e es -> le_ref e = c -> e = (c, h, l)).
  { intros e He Ee. apply (NoDup_map_in le_ref es); auto. }
  clear ND Hi. induction es as [|e r IH]; simpl; constructor.
  - destruct (Nat.eqb_spec (le_ref e) c) as [E|E]; auto.
    rewrite (G e) by (simpl; auto). unfold le_ref, le_lits, le_hdr; simpl; auto.
  - apply IH. intros; apply G; simpl; auto.
Qed.

Lemma ESH_in es es' c h l : ESH es es' -> In (c, h, l) es ->
  exists h', In (c, h', l) es' /\ lh_redundant h' = lh_redundant h /\ lh_search_pos h' = lh_search_pos h.
Proof.
  intro F. induction F as [|[[c1 h1] l1] [[c2 h2] l2] r1 r2 Hx F IH]; intros Hi; [contradiction|].
  unfold le_ref, le_lits, le_hdr in Hx. simpl in Hx. destruct Hx as (A & B & C & D). subst.
  destruct Hi as [E|Hi].
  - inv E. exists h2. simpl; auto.
  - destruct (IH Hi) as (h' & G1 & G2). exists h'. simpl; auto.
Qed.
Lemma ESH_in_rev es es' c h' l : ESH es es' -> In (c, h', l) es' ->
  exists h, In (c, h, l) es /\ lh_redundant h' = lh_redundant h /\ lh_search_pos h' = lh_search_pos h.
Proof.
  intro F. induction F as [|[[c1 h1] l1] [[c2 h2] l2] r1 r2 Hx F IH]; intros Hi; [contradiction|].
  unfold le_ref, le_lits, le_hdr in Hx. simpl in Hx. destruct Hx as (A & B & C & D). subst.
  destruct Hi as [E|Hi].
  - inv E. exists h1. simpl; auto.
  - destruct (IH Hi) as (h & G1 & G2). exists h. simpl; auto.
Qed.

Lemma PI_headers n es es' p a' : PI n es p -> LR a' es' -> ESH es es' -> PI n es' (p_set_long p a').
Proof.
  intros H HL HE. constructor; unfold p_set_long; cbn [p_trail p_values p_long p_binary p_watches]; try apply H; auto.
  - intros c h l Hi Hne. destruct (ESH_in_rev _ _ _ _ _ HE Hi) as (h0 & A & B & C). rewrite C. eapply (pi_ll _ _ _ _ H); eauto.
  - intros i s E. pose proof (pi_ri _ _ _ _ H i s E) as R. destruct (s_reason s); auto.
    destruct R as (h & r & A & B). destruct (ESH_in _ _ _ _ _ HE A) as (h' & A' & _). eauto.
  - pose proof (pi_wf _ _ _ _ H) as W. constructor.
    + intros x w Hx Hw. destruct (wf_ref _ _ _ W _ _ Hx Hw) as (A & h & l & B & C). split; auto.
      destruct (ESH_in _ _ _ _ _ HE B) as (h' & B' & _). eauto.
    + intros c h a b r Hi. destruct (ESH_in_rev _ _ _ _ _ HE Hi) as (h0 & A & _). apply (wf_cnt _ _ _ W _ _ _ _ _ A).
  - intros c h a b r Hi. destruct (ESH_in_rev _ _ _ _ _ HE Hi) as (h0 & A & _). apply (pi_pl _ _ _ _ H _ _ _ _ _ A).
Qed.

(** ** Deletion of a clause that is not a reason *)
Lemma PI_delete n es p c h l h' a' : PI n es p -> In (c, h, l) es -> LR a' (les_upd c h' [] es) ->
  (forall s, In s (t_steps (p_trail p)) -> s_reason s <> RLong c) ->
  PI n (les_upd c h' [] es) (p_set_long p a').
Proof.
  intros H Hi HL Hnr. constructor; unfold p_set_long; cbn [p_trail p_values p_long p_binary p_watches]; try apply H; auto.
  - intros c2 h2 l2 H2 Hne. apply les_upd_in in H2 as [[E _]|[H2 _]]; [inv E; congruence|]. eapply (pi_ll _ _ _ _ H); eauto.
  - intros i s E. pose proof (pi_ri _ _ _ _ H i s E) as R. destruct (s_reason s) as [| |x|c2] eqn:Er; auto.
    destruct R as (h2 & r2 & A & B). exists h2, r2. split; auto. apply les_upd_in. right. split; auto.
    unfold le_ref; simpl. intro. subst. apply (Hnr s); auto. eapply nth_error_In; eauto.
  - pose proof (pi_wf _ _ _ _ H) as W. constructor.
    + intros x w Hx Hw. destruct (wf_ref _ _ _ W _ _ Hx Hw) as (A & h2 & l2 & B & C). split; auto.
      destruct (Nat.eq_dec (w_clause w) c) as [E|E].
      * exists h', []. split; [|congruence]. apply les_upd_in. left. split; [congruence|]. exists (c, h, l). auto.
      * exists h2, l2. split; auto. apply les_upd_in. right. auto.
    + intros c2 h2 a b r H2. apply les_upd_in in H2 as [[E _]|[H2 _]]; [inv E|]. apply (wf_cnt _ _ _ W _ _ _ _ _ H2).
  - intros c2 h2 a b r H2. apply les_upd_in in H2 as [[E _]|[H2 _]]; [inv E|]. apply (pi_pl _ _ _ _ H _ _ _ _ _ H2).
Qed.

(** ** Adding a watched long clause *)
Definition wadd (W : N -> list watch) (c : nat) (a b : N) (x : N) : list watch :=
  W x ++ (if (x =? a)%N then [mkWatch c b] else []) ++ (if (x =? b)%N then [mkWatch c a] else []).

Lemma watch_push_ok n w l x : length (ws_by_lit w) = 2 * n -> vidx l < n ->
  exists w', watch_push w l x = Ret w' /\ ws_enabled w' = ws_enabled w /\ length (ws_by_lit w') = 2 * n /\
    forall y, wfun (ws_by_lit w') y = wfun (ws_by_lit w) y ++ (if (y =? l)%N then [x] else []).
Proof.
  intros HL Hv. unfold watch_push. rewrite (vget_nth []) by (rewrite HL; apply cidx_lt; auto). cbn [bind].
  rewrite vset_lt by (rewrite HL; apply cidx_lt; auto). cbn [bind]. eexists. split; [reflexivity|].
  cbn [ws_enabled ws_by_lit]. split; auto. split; [rewrite upd_length; auto|].
  intro y. rewrite (wfun_upd _ _ _ _ n) by auto. destruct (N.eqb_spec y l); [subst; reflexivity|]. rewrite app_nil_r. auto.
Qed.

Lemma watch_clause_ok n w c a b : ws_enabled w = true -> length (ws_by_lit w) = 2 * n -> vidx a < n -> vidx b < n ->
  exists w', watch_clause w c a b = Ret w' /\ ws_enabled w' = true /\ length (ws_by_lit w') = 2 * n /\
    forall y, wfun (ws_by_lit w') y = wadd (wfun (ws_by_lit w)) c a b y.
Proof.
  intros He HL Ha Hb. unfold watch_clause. rewrite He.
  destruct (watch_push_ok n w a (mkWatch c b) HL Ha) as (w1 & E1 & A1 & B1 & C1).
  rewrite E1. cbn [bind]. destruct (watch_push_ok n w1 b (mkWatch c a) B1 Hb) as (w2 & E2 & A2 & B2 & C2).
  exists w2. split; auto. split; [congruence|]. split; auto. intro y. rewrite C2, C1. unfold wadd. rewrite app_assoc. auto.
Qed.

Lemma wcnt_app c a b : wcnt c (a ++ b) = wcnt c a + wcnt c b.
Proof. unfold wcnt. rewrite map_app. apply count_occ_app. Qed.

Lemma wcnt_zero c ws : (forall w, In w ws -> w_clause w <> c) -> wcnt c ws = 0.
Proof.
  intro H. apply count_occ_not_In. intro G. apply in_map_iff in G as (w & E & Hw). apply (H w); auto.
Qed.

Lemma WF_add n es W c h a b r : WF n es W -> (forall e, In e es -> le_ref e <> c) ->
  vidx a < n -> vidx b < n ->
  WF n (es ++ [(c, h, a :: b :: r)]) (wadd W c a b).
Proof.
  intros H Hf Ha Hb.
  assert (Hnew : forall x w, In w ((if (x =? a)%N then [mkWatch c b] else []) ++ (if (x =? b)%N then [mkWatch c a] else [])) ->
    w_clause w = c /\ (w_blocking w = a \/ w_blocking w = b)).
  { intros x w Hw. apply in_app_or in Hw as [Hw|Hw]; destruct (_ =? _)%N; simpl in Hw; try contradiction; destruct Hw as [<-|[]]; simpl; auto. }
  constructor.
  - intros x w Hx Hw. unfold wadd in Hw. apply in_app_or in Hw as [Hw|Hw].
    + destruct (wf_ref _ _ _ H _ _ Hx Hw) as (A & h2 & l2 & B & C). split; auto. exists h2, l2. split; auto. apply in_or_app; auto.
    + destruct (Hnew _ _ Hw) as (E & D). split; [destruct D as [-> | ->]; auto|].
      exists h, (a :: b :: r). split; [apply in_or_app; right; left; congruence|]. intros _. destruct D as [-> | ->]; simpl; auto.
  - intros c2 h2 a2 b2 r2 Hi x Hx. unfold wadd. rewrite !wcnt_app. apply in_app_or in Hi as [Hi|[Hi|[]]].
    + rewrite (wf_cnt _ _ _ H _ _ _ _ _ Hi x Hx). specialize (Hf _ Hi). unfold le_ref in Hf. simpl in Hf.
      rewrite (wcnt_zero c2 (if (x =? a)%N then _ else _)), (wcnt_zero c2 (if (x =? b)%N then _ else _)); [lia| |];
        intros w Hw; destruct (_ =? _)%N; simpl in Hw; try contradiction; destruct Hw as [<-|[]]; simpl; congruence.
    + inversion Hi; subst c2 h2 a2 b2 r2; clear Hi. rewrite (wcnt_zero c (W x)).
      * unfold wcnt. destruct (x =? a)%N, (x =? b)%N; simpl; try destruct (Nat.eq_dec c c); simpl; auto; congruence.
      * intros w Hw. destruct (wf_ref _ _ _ H _ _ Hx Hw) as (_ & h2 & l2 & B & _). apply (Hf _ B).
Qed.

Lemma LL_add n es c h l : LL n es -> 3 <= length l -> lh_search_pos h = 0%N -> (forall x, In x l -> vidx x < n) ->
  LL n (es ++ [(c, h, l)]).
Proof.
  intros H A B C c2 h2 l2 Hi Hne. apply in_app_or in Hi as [Hi|[Hi|[]]]; [eapply H; eauto|].
  inversion Hi; subst c2 h2 l2. rewrite B. auto.
Qed.

Lemma RI_es es es' b ss : RI es b ss -> (forall e, In e es -> In e es') -> RI es' b ss.
Proof.
  intros H Hs i s E. specialize (H i s E). destruct (s_reason s); auto. destruct H as (h & r & A & B). eauto.
Qed.

(** Before the first solve call: nothing has been propagated. *)
Lemma PI_add_long0 n es p c h a b r a' w' : PI n es p ->
  (forall x, x = a \/ x = b -> ~ In (neg x) (slits (firstn (t_propagated (p_trail p)) (t_steps (p_trail p))))) ->
  LR a' (es ++ [(c, h, a :: b :: r)]) -> (forall e, In e es -> le_ref e <> c) -> r <> [] -> lh_search_pos h = 0%N ->
  (forall x, In x (a :: b :: r) -> vidx x < n) ->
  ws_enabled w' = true -> length (ws_by_lit w') = 2 * n ->
  (forall y, wfun (ws_by_lit w') y = wadd (wfun (ws_by_lit (p_watches p))) c a b y) ->
  PI n (es ++ [(c, h, a :: b :: r)]) (p_set_watches (p_set_long p a') w').
Proof.
  intros H Hq HL Hf Hr Hs Hv He Hl HW.
  constructor; unfold p_set_watches, p_set_long; cbn [p_trail p_values p_long p_binary p_watches]; try apply H; auto.
  - apply LL_add; auto; [apply H|]. destruct r; [congruence|simpl; lia].
  - eapply RI_es; [apply H|]. intros; apply in_or_app; auto.
  - eapply WF_ext; [intros ? _; symmetry; apply HW|]. apply WF_add; auto; [apply H| |]; apply Hv; simpl; auto.
  - intros c1 h1 a1 b1 r1 Hi x Hx Hn. apply in_app_or in Hi as [Hi|[Hi|[]]]; [eapply (pi_pl _ _ _ _ H); eauto|].
    inversion Hi; subst. exfalso. eapply Hq; eauto.
Qed.

(** Learning a clause: [a] is asserted by the new clause. *)
Lemma PI_learn_long n es p c h a b r a' w' v' : PI n es p ->
  LR a' (es ++ [(c, h, a :: b :: r)]) -> (forall e, In e es -> le_ref e <> c) -> r <> [] -> lh_search_pos h = 0%N ->
  (forall x, In x (a :: b :: r) -> vidx x < n) ->
  ws_enabled w' = true -> length (ws_by_lit w') = 2 * n ->
  (forall y, wfun (ws_by_lit w') y = wadd (wfun (ws_by_lit (p_watches p))) c a b y) ->
  ~ In a (slits (t_steps (p_trail p))) -> ~ In (neg a) (slits (t_steps (p_trail p))) ->
  falsified (t_steps (p_trail p)) (b :: r) ->
  slev (t_steps (p_trail p)) (neg b) = decision_level (p_trail p) ->
  VR n v' (slits (t_steps (p_trail p) ++ [mkStep a (decision_level (p_trail p)) (RLong c)])) ->
  PI n (es ++ [(c, h, a :: b :: r)])
    (p_push (p_set_watches (p_set_long p a') w') v' (mkStep a (decision_level (p_trail p)) (RLong c))).
Proof.
  intros H HL Hf Hr Hs Hv He Hl HW Na Nn Hfa Hlev HV. set (s := mkStep a _ _) in *.
  pose proof (tr_q _ _ (pi_tr _ _ _ _ H)) as Q.
  constructor; unfold p_push, p_set_vt, p_set_watches, p_set_long;
    cbn [p_trail p_values p_long p_binary p_watches]; try apply H; auto.
  - apply TR_push with (dbg := true); auto; [apply H|apply Hv; simpl; auto|split; auto|discriminate].
  - apply LL_add; auto; [apply H|]. destruct r; [congruence|simpl; lia].
  - cbn [t_push t_steps]. apply RI_push; auto.
    + eapply RI_es; [apply H|]. intros; apply in_or_app; auto.
    + cbn [s s_reason s_lit]. exists h, (b :: r). split; [apply in_or_app; simpl; auto|]. apply Hfa.
  - eapply WF_ext; [intros ? _; symmetry; apply HW|]. apply WF_add; auto; [apply H| |]; apply Hv; simpl; auto.
  - cbn [t_push t_steps t_propagated]. intros c2 h2 a2 b2 r2 Hi w Hw Hn. apply in_app_or in Hi as [Hi|[Hi|[]]].
    + eapply PL_app; eauto. apply H.
    + inversion Hi; subst c2 h2 a2 b2 r2; clear Hi. rewrite firstn_app_le in Hn by auto. apply in_slits_firstn in Hn.
      destruct Hw as [-> | ->]; [contradiction|].
      exists a. split; [simpl; auto|]. split; [rewrite map_app; apply in_or_app; right; simpl; auto|].
      change a with (s_lit s) at 1. rewrite slev_new by auto. rewrite slev_app, Hlev by auto. cbn [s s_level]. auto.
  - cbn [t_push t_steps t_propagated]. apply PB_app; [apply H|auto].
Qed.

(** ** Adding a binary clause *)
Definition badd (b : list (list N)) (x y z : N) : list N :=
  bin b z ++ (if (z =? x)%N then [y] else []) ++ (if (z =? y)%N then [x] else []).

Lemma bin_push_ok n b x y : length b = 2 * n -> vidx x < n ->
  exists b', bin_push b x y = Ret b' /\ length b' = 2 * n /\
    forall z, bin b' z = bin b z ++ (if (z =? x)%N then [y] else []).
Proof.
  intros HL Hv. assert (Hc : cidx x < length b) by (rewrite HL; apply cidx_lt; auto).
  unfold bin_push. rewrite (vget_nth []) by auto. cbn [bind].
  rewrite vset_lt by auto. eexists. split; [reflexivity|].
  split; [rewrite upd_length; auto|]. intro z. unfold bin. destruct (N.eqb_spec z x) as [->|Ne].
  - apply nth_error_nth. apply upd_same. auto.
  - rewrite app_nil_r. destruct (Nat.lt_ge_cases (cidx z) (length b)) as [G|G].
    + apply nth_error_nth. rewrite upd_other; [apply nth_error_nth'; auto|]. intro E. apply Ne. symmetry. apply cidx_inj; auto.
    + rewrite !nth_overflow; auto. rewrite upd_length. auto.
Qed.

Lemma bin_add_ok n b x y : length b = 2 * n -> vidx x < n -> vidx y < n ->
  exists b', bin_add b x y = Ret b' /\ length b' = 2 * n /\ forall z, bin b' z = badd b x y z.
Proof.
  intros HL Hx Hy. unfold bin_add. destruct (bin_push_ok n b x y HL Hx) as (b1 & E1 & L1 & C1).
  rewrite E1. cbn [bind]. destruct (bin_push_ok n b1 y x L1 Hy) as (b2 & E2 & L2 & C2).
  exists b2. split; auto. split; auto. intro z. rewrite C2, C1. unfold badd. rewrite app_assoc. auto.
Qed.

Lemma badd_in b x y z w : In w (badd b x y z) <-> In w (bin b z) \/ (z = x /\ w = y) \/ (z = y /\ w = x).
Proof.
  unfold badd. rewrite !in_app_iff. destruct (N.eqb_spec z x), (N.eqb_spec z y); simpl; intuition.
Qed.

Lemma BI_add n b x y b' : BI n b -> vidx x < n -> vidx y < n -> length b' = 2 * n ->
  (forall z, bin b' z = badd b x y z) -> BI n b'.
Proof.
  intros H Hx Hy HL HB. constructor; auto. intros z w Hz Hw. rewrite HB in Hw. rewrite HB.
  apply badd_in in Hw as [Hw|[[-> ->]|[-> ->]]].
  - destruct (bi_sym _ _ H _ _ Hz Hw). split; auto. apply badd_in. auto.
  - split; auto. apply badd_in. auto.
  - split; auto. apply badd_in. auto.
Qed.

Lemma RI_bin es b b' ss : RI es b ss -> (forall x y, In y (bin b x) -> In y (bin b' x)) -> RI es b' ss.
Proof.
  intros H Hs i s E. specialize (H i s E). destruct (s_reason s); auto. destruct H. split; auto.
Qed.

Lemma PI_add_bin0 n es p x y b' : PI n es p ->
  (forall z, z = x \/ z = y -> ~ In (neg z) (slits (firstn (t_propagated (p_trail p)) (t_steps (p_trail p))))) -> vidx x < n -> vidx y < n ->
  length b' = 2 * n -> (forall z, bin b' z = badd (p_binary p) x y z) -> PI n es (p_set_binary p b').
Proof.
  intros H Hq Hx Hy HL HB.
  constructor; unfold p_set_binary; cbn [p_trail p_values p_long p_binary p_watches]; try apply H; auto.
  - apply (BI_add n (p_binary p) x y); auto. apply H.
  - eapply RI_bin; [apply H|]. intros z w Hw. rewrite HB. apply badd_in; auto.
  - intros z w Hz Hi Hn. rewrite HB in Hi. apply badd_in in Hi as [Hi|[[-> ->]|[-> ->]]]; [eapply (pi_pb _ _ _ _ H); eauto|exfalso; eapply Hq; [left; reflexivity|exact Hn]|exfalso; eapply Hq; [right; reflexivity|exact Hn]].
Qed.

Lemma PI_learn_bin n es p x y b' v' : PI n es p -> vidx x < n -> vidx y < n ->
  length b' = 2 * n -> (forall z, bin b' z = badd (p_binary p) x y z) ->
  ~ In x (slits (t_steps (p_trail p))) -> ~ In (neg x) (slits (t_steps (p_trail p))) ->
  In (neg y) (slits (t_steps (p_trail p))) -> slev (t_steps (p_trail p)) (neg y) = decision_level (p_trail p) ->
  VR n v' (slits (t_steps (p_trail p) ++ [mkStep x (decision_level (p_trail p)) (RBinary y)])) ->
  PI n es (p_push (p_set_binary p b') v' (mkStep x (decision_level (p_trail p)) (RBinary y))).
Proof.
  intros H Hx Hy HL HB Na Nn Hfa Hlev HV. set (s := mkStep x _ _) in *.
  pose proof (tr_q _ _ (pi_tr _ _ _ _ H)) as Q.
  constructor; unfold p_push, p_set_vt, p_set_binary; cbn [p_trail p_values p_long p_binary p_watches]; try apply H; auto.
  - apply TR_push with (dbg := true); auto; [apply H|split; auto|discriminate].
  - apply (BI_add n (p_binary p) x y); auto. apply H.
  - cbn [t_push t_steps]. apply RI_push; auto.
    + eapply RI_bin; [apply H|]. intros z w Hw. rewrite HB. apply badd_in; auto.
    + cbn [s s_reason s_lit]. split; auto. rewrite HB. apply badd_in; auto.
  - cbn [t_push t_steps t_propagated]. apply PL_app; [apply H|auto].
  - cbn [t_push t_steps t_propagated]. intros z w Hz Hi Hn. rewrite HB in Hi. apply badd_in in Hi as [Hi|[[-> ->]|[-> ->]]].
    + eapply PB_app; eauto. apply H.
    + rewrite firstn_app_le in Hn by auto. apply in_slits_firstn in Hn. contradiction.
    + split; [rewrite map_app; apply in_or_app; right; simpl; auto|].
      change x with (s_lit s) at 1. rewrite slev_new by auto. rewrite slev_app, Hlev by auto. cbn [s s_level]. auto.
Qed.

(** ** Top-level units *)
Lemma PI_unit n es p dbg x v' : PI n es p -> vidx x < n -> decision_level (p_trail p) = 0 ->
  fresh dbg (p_trail p) (mkStep x 0 RUnit) ->
  (In x (slits (t_steps (p_trail p))) -> t_propagated (p_trail p) = 0) ->
  VR n v' (slits (t_steps (p_trail p) ++ [mkStep x 0 RUnit])) ->
  PI n es (p_push p v' (mkStep x 0 RUnit)).
Proof.
  intros H Hx Hd Hf Hq HV. set (s := mkStep x _ _) in *. pose proof (tr_q _ _ (pi_tr _ _ _ _ H)) as Q.
  constructor; unfold p_push, p_set_vt; cbn [p_trail p_values p_long p_binary p_watches]; try apply H; auto.
  - apply TR_push with (dbg := dbg); auto; [apply H|discriminate].
  - cbn [t_push t_steps]. destruct Hf as [F1 [F2|(F2 & F3 & F4 & F5)]].
    + apply RI_push; [apply H|auto|reflexivity].
    + intros i s' E. apply nth_snoc in E as [[L E]|[-> ->]]; [|reflexivity].
      rewrite (F5 s') by (eapply nth_error_In; eauto). pose proof (tr_lev_le n _ (pi_tr _ _ _ _ H) _ _ E). lia.
  - cbn [t_push t_steps t_propagated]. apply PL_app; [apply H|auto].
  - cbn [t_push t_steps t_propagated]. apply PB_app; [apply H|auto].
Qed.

(** ** Unsat flag *)
Lemma PI_unsat n es p b : PI n es p -> PI n es (p_set_unsat p b).
Proof. intro H. constructor; try apply H. Qed.

(** ** Resizing *)
Lemma nth_vresize_def {A} (l : list A) k n d i : k = length l -> k <= n -> nth i (vresize l n d) d = nth i l d.
Proof.
  intros -> L. rewrite vresize_grow by auto. destruct (Nat.lt_ge_cases i (length l)) as [G|G].
  - apply app_nth1. auto.
  - rewrite app_nth2 by auto. rewrite nth_repeat, nth_overflow; auto.
Qed.

Lemma cidx_ge l n : n <= vidx l -> 2 * n <= cidx l.
Proof. intro H. destruct (Nat.lt_ge_cases (cidx l) (2 * n)) as [G|G]; auto. apply cidx_lt in G. lia. Qed.

Lemma PI_resize n n' es p : PI n es p -> n <= n' -> (N.of_nat n' <= 1073741824)%N -> PI n' es (prop_resize p n').
Proof.
  intros H L B.
  assert (HB : forall x, bin (bin_resize (p_binary p) n') x = bin (p_binary p) x).
  { intro x. unfold bin, bin_resize. eapply nth_vresize_def; [symmetry; apply (bi_len _ _ (pi_bi _ _ _ _ H))|lia]. }
  assert (HB0 : forall x, n <= vidx x -> bin (p_binary p) x = []).
  { intros x Hx. unfold bin. apply nth_overflow. rewrite (bi_len _ _ (pi_bi _ _ _ _ H)). apply cidx_ge; auto. }
  assert (HW : forall x, wfun (ws_by_lit (watches_resize (p_watches p) n')) x = wfun (ws_by_lit (p_watches p)) x).
  { intro x. unfold wfun, watches_resize. cbn [ws_by_lit]. eapply nth_vresize_def; [symmetry; apply (pi_wl _ _ _ _ H)|lia]. }
  assert (HW0 : forall x, n <= vidx x -> wfun (ws_by_lit (p_watches p)) x = []).
  { intros x Hx. unfold wfun. apply nth_overflow. rewrite (pi_wl _ _ _ _ H). apply cidx_ge; auto. }
  constructor; unfold prop_resize; cbn [p_trail p_values p_long p_binary p_watches]; try apply H; auto.
  - pose proof (pi_tr _ _ _ _ H) as HT. constructor; cbn [trail_resize t_index t_steps t_decisions t_propagated]; try apply HT.
    + apply vresize_length.
    + intros l Hl. pose proof (VR_range _ _ _ _ (pi_vr _ _ _ _ H) Hl) as G. rewrite vresize_nth by lia. rewrite (tr_idx _ _ HT _ Hl). auto.
  - cbn [trail_resize t_steps]. apply VR_resize with (n := n); auto. apply H.
  - intros c h l Hi Hne. destruct (pi_ll _ _ _ _ H _ _ _ Hi Hne) as (A1 & A2 & A3). split; auto. split; auto.
    intros x Hx. specialize (A3 x Hx). lia.
  - constructor; [unfold bin_resize; rewrite vresize_length; lia|]. intros x y Hx Hy. rewrite HB in Hy |- *.
    destruct (Nat.lt_ge_cases (vidx x) n) as [G|G]; [|rewrite HB0 in Hy by auto; contradiction].
    destruct (bi_sym _ _ (pi_bi _ _ _ _ H) _ _ G Hy). split; [lia|auto].
  - cbn [trail_resize t_steps]. eapply RI_bin; [apply H|]. intros x y Hy. rewrite HB. auto.
  - unfold watches_resize. cbn [ws_by_lit]. rewrite vresize_length. lia.
  - pose proof (pi_wf _ _ _ _ H) as W. constructor.
    + intros x w Hx Hw. rewrite HW in Hw. destruct (Nat.lt_ge_cases (vidx x) n) as [G|G]; [|rewrite HW0 in Hw by auto; contradiction].
      destruct (wf_ref _ _ _ W _ _ G Hw) as (A & A'). split; [lia|auto].
    + intros c h a b r Hi x Hx. rewrite HW. destruct (Nat.lt_ge_cases (vidx x) n) as [G|G]; [apply (wf_cnt _ _ _ W _ _ _ _ _ Hi); auto|].
      rewrite HW0 by auto. destruct (pi_ll _ _ _ _ H _ _ _ Hi ltac:(discriminate)) as (_ & _ & A3).
      pose proof (A3 a ltac:(simpl; auto)). pose proof (A3 b ltac:(simpl; auto)).
      destruct (N.eqb_spec x a); [subst; lia|]. destruct (N.eqb_spec x b); [subst; lia|]. reflexivity.
  - cbn [trail_resize t_steps t_propagated]. intros x y Hx Hy Hn. rewrite HB in Hy.
    destruct (Nat.lt_ge_cases (vidx x) n) as [G|G]; [|rewrite HB0 in Hy by auto; contradiction].
    eapply (pi_pb _ _ _ _ H); eauto.
Qed.
