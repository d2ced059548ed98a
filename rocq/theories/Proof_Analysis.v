(** First-UIP clause derivation. *)
From Coq Require Import NArith List Bool Arith Lia Permutation Sorted ZifyN ZifyNat ZifyBool.
From Verif Require Import Model_Base Model_Lit Model_PartialAssignment Model_Header Model_Arena Model_Prop
  Model_Heap Model_Vsids Model_Analysis Spec Drivers_Arena Proof_Base Proof_PA Proof_Lit Proof_Header Proof_Arena
  Proof_ArenaHist Proof_Long Proof_Trail Proof_Heap Proof_Backtrack Proof_Inv Proof_Propagate Proof_PropOps Proof_Glue.
Import ListNotations.

(** ** Reasons and closed sets of literals *)
Definition rsn (es : list lent) (s : step) (rl : list N) : Prop :=
  match s_reason s with
  | RDecision => False
  | RUnit => rl = []
  | RBinary l => rl = [l]
  | RLong c => exists h, In (c, h, s_lit s :: rl) es
  end.

Definition closed (es : list lent) (ss : list step) (U : N -> Prop) : Prop :=
  forall i s rl, nth_error ss i = Some s -> rsn es s rl -> (forall x, In x rl -> U (neg x)) -> U (s_lit s).

Lemma rsn_ESH es es' s rl : ESH es es' -> (rsn es s rl <-> rsn es' s rl).
Proof.
  intro H. unfold rsn. destruct (s_reason s); try tauto. split; intros (h & Hi).
  - destruct (ESH_in _ _ _ _ _ H Hi) as (h' & A & _). eauto.
  - destruct (ESH_in_rev _ _ _ _ _ H Hi) as (h' & A & _). eauto.
Qed.
Lemma closed_ESH es es' ss U : ESH es es' -> closed es ss U -> closed es' ss U.
Proof. intros H C i s rl E R. apply (C i s rl E). apply (rsn_ESH es es'); auto. Qed.

Lemma reason_lits_ok n es p i s : PI n es p -> nth_error (t_steps (p_trail p)) i = Some s -> s_reason s <> RDecision ->
  exists rl, reason_lits (p_long p) (s_reason s) = Ret rl /\ rsn es s rl /\
    forall x, In x rl -> before (t_steps (p_trail p)) i (neg x).
Proof.
  intros H E Hd. pose proof (pi_ri _ _ _ _ H i s E) as R. unfold rsn. destruct (s_reason s) as [| |l|c]; [contradiction| | |].
  - exists []. split; auto. split; auto. intros x [].
  - exists [l]. split; auto. split; auto. intros x [<-|[]]. apply R.
  - destruct R as (h & r & A & B). exists r. cbn [reason_lits]. rewrite (LR_lits _ _ (pi_lr _ _ _ _ H) _ _ _ A). cbn [bind].
    split; auto. split; eauto.
Qed.

Lemma lvl_in ds i : In i ds -> 1 <= lvl ds i.
Proof.
  unfold lvl. induction ds as [|d r IH]; simpl; [tauto|]. intros [->|Hi].
  - rewrite Nat.leb_refl. simpl. lia.
  - destruct (d <=? i); simpl; specialize (IH Hi); lia.
Qed.

Lemma dec_level n t i s : TR n t -> nth_error (t_steps t) i = Some s -> s_reason s = RDecision -> 1 <= s_level s.
Proof. intros H E R. rewrite (tr_lev _ _ H _ _ E). apply lvl_in. apply (tr_rdec _ _ H _ _ E). auto. Qed.

Lemma dec_first n t i s j s' : TR n t -> nth_error (t_steps t) i = Some s -> s_reason s = RDecision ->
  j < i -> nth_error (t_steps t) j = Some s' -> s_level s' < s_level s.
Proof.
  intros H E R L E'. rewrite (tr_lev _ _ H _ _ E), (tr_lev _ _ H _ _ E').
  pose proof (proj1 (tr_rdec _ _ H _ _ E) R) as Hi. apply In_nth_error in Hi as [k Ek].
  pose proof (lvl_nth _ _ _ j (tr_sort _ _ H) Ek) as G1. pose proof (lvl_nth _ _ _ i (tr_sort _ _ H) Ek) as G2. lia.
Qed.

Lemma closed_zero n es p U i s : PI n es p -> closed es (t_steps (p_trail p)) U ->
  nth_error (t_steps (p_trail p)) i = Some s -> s_level s = 0 -> U (s_lit s).
Proof.
  intros H C. revert s. induction i as [i IH] using lt_wf_ind. intros s E L.
  pose proof (pi_tr _ _ _ _ H) as HT.
  assert (Hd : s_reason s <> RDecision). { intro R. pose proof (dec_level n _ i s HT E R). lia. }
  destruct (reason_lits_ok n es p i s H E Hd) as (rl & _ & R & B). apply (C i s rl E R). intros x Hx.
  destruct (B x Hx) as (j & Ej & Lj). destruct (lpos_some _ _ _ Ej) as (s' & E' & <-). apply (IH j Lj s' E').
  pose proof (tr_mono n _ HT j i s' s ltac:(lia) E' E). lia.
Qed.

(** ** Flags *)
Definition flag (cur : list bool) (i : nat) : bool := nth i cur false.
Definition levi (ss : list step) (i : nat) : nat := match nth_error ss i with Some s => s_level s | None => 0 end.
Definition cnt (ss : list step) (d k : nat) (cur : list bool) : nat :=
  length (filter (fun i => flag cur i && (levi ss i =? d)) (seq 0 k)).

Lemma flag_nth cur i : nth_error cur i = Some true <-> flag cur i = true.
Proof.
  unfold flag. destruct (nth_error cur i) eqn:E.
  - rewrite (nth_error_nth _ _ _ E). split; congruence.
  - rewrite nth_overflow by (apply nth_error_None; auto). split; discriminate.
Qed.
Lemma flag_upd cur i j b : flag (upd cur i b) j = if (i =? j) && (i <? length cur) then b else flag cur j.
Proof.
  unfold flag. destruct (Nat.ltb_spec i (length cur)) as [L|L].
  - destruct (Nat.eqb_spec i j) as [->|N]; simpl.
    + apply nth_error_nth. rewrite upd_nth, Nat.eqb_refl. destruct (Nat.ltb_spec j (length cur)); [auto|lia].
    + destruct (nth_error cur j) eqn:E.
      * rewrite (nth_error_nth _ _ _ E). apply nth_error_nth. rewrite upd_nth. destruct (Nat.eqb_spec i j); [lia|auto].
      * apply nth_error_None in E. rewrite !nth_overflow; auto. rewrite upd_length. auto.
  - rewrite andb_false_r. destruct (nth_error cur j) eqn:E.
      * rewrite (nth_error_nth _ _ _ E). apply nth_error_nth. rewrite upd_nth. destruct (Nat.eqb_spec i j); auto.
        subst. assert (j < length cur) by (apply nth_error_Some; congruence). lia.
      * apply nth_error_None in E. rewrite !nth_overflow; auto. rewrite upd_length. auto.
Qed.

Lemma cnt_S ss d k cur : cnt ss d (S k) cur = cnt ss d k cur + one (flag cur k && (levi ss k =? d)).
Proof.
  unfold cnt. rewrite seq_S, filter_app, app_length. cbn [Nat.add filter].
  destruct (flag cur k && _); reflexivity.
Qed.
Lemma cnt_upd_ge ss d k cur i b : k <= i -> cnt ss d k (upd cur i b) = cnt ss d k cur.
Proof.
  induction k; intro L; [reflexivity|]. rewrite !cnt_S, IHk by lia. rewrite flag_upd.
  destruct (Nat.eqb_spec i k); [lia|]. reflexivity.
Qed.
Lemma cnt_upd_set ss d k cur i : i < k -> i < length cur -> flag cur i = false ->
  cnt ss d k (upd cur i true) = cnt ss d k cur + one (levi ss i =? d).
Proof.
  induction k; intros L1 L2 F; [lia|]. rewrite !cnt_S, flag_upd.
  destruct (Nat.ltb_spec i (length cur)); [|lia].
  destruct (Nat.eqb_spec i k) as [->|N]; cbn [andb].
  - rewrite cnt_upd_ge by lia. rewrite F. simpl. lia.
  - rewrite IHk by (auto; lia). lia.
Qed.
Lemma cnt_pos ss d k cur i : i < k -> flag cur i = true -> levi ss i = d -> 1 <= cnt ss d k cur.
Proof.
  induction k; intros L F E; [lia|]. rewrite cnt_S. destruct (Nat.eq_dec i k) as [->|N].
  - rewrite F, E, Nat.eqb_refl. simpl. lia.
  - specialize (IHk ltac:(lia) F E). lia.
Qed.
Lemma cnt_0 ss d k cur : (forall i, i < k -> flag cur i = true -> levi ss i <> d) -> cnt ss d k cur = 0.
Proof.
  induction k; intro H; [reflexivity|]. rewrite cnt_S, IHk by (intros; apply H; auto; lia).
  destruct (flag cur k) eqn:F; [|reflexivity]. destruct (Nat.eqb_spec (levi ss k) d); [|reflexivity].
  exfalso. eapply H; eauto.
Qed.

Lemma NoDup_app_snoc {A} (l : list A) x : NoDup l -> ~ In x l -> NoDup (l ++ [x]).
Proof.
  intros H N. apply NoDup_app_iff. split; auto. split; [constructor; [tauto|constructor]|].
  intros y Hy [<-|[]]. auto.
Qed.

Definition unprot (es : list lent) : Prop := forall c h l, In (c, h, l) es -> l <> [] -> lh_protected h = false.

Section Uip.
Variables (n : nat) (es0 : list lent) (p0 : prop).
Hypothesis HP0 : PI n es0 p0.
Notation t := (p_trail p0).
Notation ss := (t_steps t).
Notation d := (decision_level t).
Hypothesis Hd : 1 <= d.
Variable m0 : minim.

Record UI (k : nat) (an : analysis) : Prop := {
  ui_len : length ss <= length (an_current an);
  ui_gl : d < length (an_glue_flags an);
  ui_ga : allf (an_glue_flags an);
  ui_cur : forall i, flag (an_current an) i = true ->
     (i < k /\ levi ss i = d) \/ (exists x, In x (an_derived an) /\ lpos ss (neg x) = Some i);
  ui_der : forall x, In x (an_derived an) -> 1 <= slev ss (neg x) < d /\
     exists i, lpos ss (neg x) = Some i /\ flag (an_current an) i = true;
  ui_nd : NoDup (an_derived an);
  ui_cnt : an_count an = cnt ss d k (an_current an);
  ui_min : an_min an = m0 }.

(** The literals whose truth is still assumed. *)
Definition obl (U : N -> Prop) (k : nat) (an : analysis) : Prop :=
  (forall x, In x (an_derived an) -> U (neg x)) /\
  (forall i s, i < k -> nth_error ss i = Some s -> flag (an_current an) i = true -> s_level s = d -> U (s_lit s)).

Definition CBs (cb cb' : callbacks) : Prop :=
  CB n cb' /\ (forall v, enq cb' v <-> enq cb v) /\ cb_phases cb' = cb_phases cb.
Lemma CBs_refl cb : CB n cb -> CBs cb cb.
Proof. intro H. split; auto. split; auto. tauto. Qed.
Lemma CBs_trans c1 c2 c3 : CBs c1 c2 -> CBs c2 c3 -> CBs c1 c3.
Proof. intros (A & B & C) (A' & B' & C'). split; auto. split; [|congruence]. intro v. rewrite B', B. tauto. Qed.

Lemma add_literal_ok k an cb l : UI k an -> CB n cb -> before ss k (neg l) ->
  exists an' cb', add_literal t (an, cb) l = Ret (an', cb') /\ UI k an' /\ CBs cb cb' /\
    an_count an <= an_count an' /\ (slev ss (neg l) = d -> 1 <= an_count an') /\
    (forall U, closed es0 ss U -> obl U k an' -> obl U k an /\ U (neg l)).
Proof.
  intros HU HC (i & Ei & Li). pose proof (pi_tr _ _ _ _ HP0) as HT.
  pose proof (lpos_In _ _ _ Ei) as Hin.
  destruct (tr_index_neg n t HT l Hin) as (i' & s & A & B & C & D & E). rewrite Ei in B. inv B.
  assert (Hli : levi ss i' = s_level s) by (unfold levi; rewrite C; auto).
  assert (Hlen : i' < length (an_current an)).
  { pose proof (ui_len _ _ HU). assert (i' < length ss) by (apply nth_error_Some; congruence). lia. }
  assert (Hv : vidx l < n). { rewrite <- vidx_neg. eapply VR_range; [apply HP0|]; auto. }
  unfold add_literal. rewrite A. cbn [bind]. rewrite (proj2 (vget_ok _ _ _) C). cbn [bind].
  destruct (Nat.eqb_spec (s_level s) 0) as [Z|Z].
  { exists an, cb. split; auto. split; auto. split; [apply CBs_refl; auto|]. split; auto. split; [lia|].
    intros U HU' HO. split; auto. rewrite <- D. eapply closed_zero; eauto. }
  rewrite (vget_nth false) by auto. cbn [bind]. rewrite vset_lt by auto. cbn [bind]. fold (flag (an_current an) i').
  destruct (flag (an_current an) i') eqn:F.
  { assert (Eq : upd (an_current an) i' true = an_current an).
    { apply nth_ext with (d := false) (d' := false); [apply upd_length|]. intros j _. change (flag (upd (an_current an) i' true) j = flag (an_current an) j).
      rewrite flag_upd. destruct (Nat.eqb_spec i' j) as [<-|]; cbn [andb]; auto. destruct (_ <? _); auto. }
    rewrite Eq. exists an, cb. split; [destruct an; reflexivity|]. split; auto. split; [apply CBs_refl; auto|]. split; auto.
    split. { intro Hs. rewrite (ui_cnt _ _ HU). apply cnt_pos with i'; auto. congruence. }
    intros U HU' HO. split; auto. destruct (ui_cur _ _ HU i' F) as [[G1 G2]|(x & G1 & G2)].
    - rewrite <- D. apply (proj2 HO i' s); auto. congruence.
    - assert (neg x = neg l) as <-; [|apply HO; auto]. destruct (lpos_some _ _ _ G2) as (s' & X & <-). congruence. }
  destruct (cb_conflict_ok n cb l HC Hv) as (cb' & Ecb & HCB). rewrite Ecb. cbn [bind].
  assert (Hfl : forall j, flag (upd (an_current an) i' true) j = true <-> j = i' \/ flag (an_current an) j = true).
  { intro j. rewrite flag_upd. destruct (Nat.ltb_spec i' (length (an_current an))); [|lia]. rewrite andb_true_r.
    destruct (Nat.eqb_spec i' j); intuition congruence. }
  assert (Hcnt : cnt ss d k (upd (an_current an) i' true) = cnt ss d k (an_current an) + one (s_level s =? d)).
  { rewrite cnt_upd_set, Hli; auto. }
  pose proof (tr_lev_le n t HT _ _ C) as Hle.
  destruct (Nat.eqb_spec (s_level s) d) as [G|G].
  - eexists _, cb'. split; [reflexivity|]. unfold an_set_count, an_set_current. cbn [an_current an_glue_flags an_derived an_count an_min].
    split; [|split; [auto|]].
    + constructor; cbn [an_current an_glue_flags an_derived an_count an_min]; try apply HU.
      * rewrite upd_length. apply HU.
      * intros j Hj. apply Hfl in Hj as [->|Hj]; [left; split; auto; congruence|]. apply (ui_cur _ _ HU); auto.
      * intros x Hx. destruct (ui_der _ _ HU x Hx) as (G1 & j & G2 & G3). split; auto. exists j. split; auto. apply Hfl. auto.
      * rewrite Hcnt, (ui_cnt _ _ HU). reflexivity.
    + split; [lia|]. split; [lia|]. intros U HU' [O1 O2]. cbn [an_current an_derived] in *. split; [split; auto|].
      * intros j s' Lj Ej Fj Hl. apply (O2 j s'); auto. apply Hfl. auto.
      * rewrite <- D. apply (O2 i' s); auto. apply Hfl. auto.
  - eexists _, cb'. split; [reflexivity|]. unfold an_set_derived, an_set_current. cbn [an_current an_glue_flags an_derived an_count an_min].
    split; [|split; [auto|]].
    + constructor; cbn [an_current an_glue_flags an_derived an_count an_min]; try apply HU.
      * rewrite upd_length. apply HU.
      * intros j Hj. apply Hfl in Hj as [->|Hj].
        -- right. exists l. split; auto. apply in_or_app. simpl; auto.
        -- destruct (ui_cur _ _ HU j Hj) as [G1|(x & G1 & G2)]; auto. right. exists x. split; auto. apply in_or_app. auto.
      * intros x Hx. apply in_app_or in Hx as [Hx|[<-|[]]].
        -- destruct (ui_der _ _ HU x Hx) as (G1 & j & G2 & G3). split; auto. exists j. split; auto. apply Hfl. auto.
        -- split; [lia|]. exists i'. split; auto. apply Hfl. auto.
      * apply NoDup_app_snoc; [apply HU|]. intro Hx. destruct (ui_der _ _ HU l Hx) as (_ & j & G2 & G3). congruence.
      * rewrite Hcnt, (ui_cnt _ _ HU). simpl. lia.
    + split; [lia|]. split; [lia|]. intros U HU' [O1 O2]. cbn [an_current an_derived] in *. split; [split|].
      * intros x Hx. apply O1. apply in_or_app. auto.
      * intros j s' Lj Ej Fj Hl. apply (O2 j s'); auto. apply Hfl. auto.
      * apply O1. apply in_or_app. simpl. auto.
Qed.

Lemma add_literals_ok k ls : (forall x, In x ls -> before ss k (neg x)) -> forall an cb, UI k an -> CB n cb ->
  exists an' cb', foldM (add_literal t) ls (an, cb) = Ret (an', cb') /\ UI k an' /\ CBs cb cb' /\
    an_count an <= an_count an' /\ (forall x, In x ls -> slev ss (neg x) = d -> 1 <= an_count an') /\
    (forall U, closed es0 ss U -> obl U k an' -> obl U k an /\ forall x, In x ls -> U (neg x)).
Proof.
  induction ls as [|l r IH]; intros Hb an cb HU HC.
  - exists an, cb. split; [reflexivity|]. split; auto. split; [apply CBs_refl; auto|]. split; auto. split; [intros x []|].
    intros U _ HO. split; auto. intros x [].
  - destruct (add_literal_ok k an cb l HU HC (Hb l (or_introl eq_refl))) as (an1 & cb1 & E1 & U1 & C1 & L1 & D1 & O1).
    cbn [foldM]. rewrite E1. cbn [bind].
    destruct (IH (fun x Hx => Hb x (or_intror Hx)) an1 cb1 U1 (proj1 C1)) as (an2 & cb2 & E2 & U2 & C2 & L2 & D2 & O2).
    exists an2, cb2. split; auto. split; auto. split; [eapply CBs_trans; eauto|]. split; [lia|]. split.
    + intros x [<-|Hx] G; [specialize (D1 G); lia|eauto].
    + intros U HU' HO. destruct (O2 U HU' HO) as [A B]. destruct (O1 U HU' A) as [A' B']. split; auto.
      intros x [<-|Hx]; auto.
Qed.

(** *** The backwards scan *)
Lemma clear_flags_ok ds : (forall x, In x ds -> In (neg x) (slits ss)) -> forall cur, length ss <= length cur ->
  exists cur', foldM (fun c l => let* j := trail_index t l in vset c j false) ds cur = Ret cur' /\
    length cur' = length cur /\
    forall i, flag cur' i = true -> flag cur i = true /\ forall x, In x ds -> lpos ss (neg x) <> Some i.
Proof.
  pose proof (pi_tr _ _ _ _ HP0) as HT.
  induction ds as [|x r IH]; intros Hin cur HL.
  - exists cur. split; [reflexivity|]. split; auto.
  - destruct (tr_index_neg n t HT x (Hin x (or_introl eq_refl))) as (i & s & A & B & C & D & E).
    cbn [foldM]. rewrite A. cbn [bind]. assert (i < length ss) by (apply nth_error_Some; congruence).
    rewrite vset_lt by lia. cbn [bind].
    destruct (IH (fun y Hy => Hin y (or_intror Hy)) (upd cur i false)) as (cur' & E1 & E2 & E3); [rewrite upd_length; auto|].
    exists cur'. split; auto. rewrite upd_length in E2. split; auto. intros j F. destruct (E3 j F) as [F1 F2].
    rewrite flag_upd in F1. destruct (Nat.ltb_spec i (length cur)); [|lia]. rewrite andb_true_r in F1.
    destruct (Nat.eqb_spec i j); [discriminate|]. split; auto. intros y [<-|Hy]; auto. congruence.
Qed.

(** The state during the scan: only clause headers change. *)
Record PS (p : prop) (es : list lent) : Prop := {
  ps_p : p = p_set_long p0 (p_long p);
  ps_pi : PI n es p;
  ps_es : ESH es0 es;
  ps_un : unprot es0 -> unprot es }.

Lemma PS_trail p es : PS p es -> p_trail p = t.
Proof. intro H. rewrite (ps_p _ _ H). reflexivity. Qed.

Lemma PS_bump p es c h l tmp : PS p es -> In (c, h, l) es -> (forall x, In x l -> assigned ss x) -> d < length tmp -> allf tmp ->
  exists a' es', bump_long_clause t (p_long p) c tmp = Ret (a', tmp) /\ PS (p_set_long p a') es'.
Proof.
  intros H Hi Ha Hl Hf. pose proof (ps_pi _ _ H) as HP. pose proof (pi_tr _ _ _ _ HP0) as HT.
  destruct (bump_ok n t (p_long p) es c h l tmp HT (pi_lr _ _ _ _ HP) Hi Ha Hl Hf) as (a' & E & A & B & C).
  exists a'. eexists. split; [exact E|]. constructor.
  - rewrite (ps_p _ _ H). reflexivity.
  - eapply PI_headers; eauto.
  - eapply ESH_trans; [apply H|]; auto.
  - intros Hu c2 h2 l2 H2 Hne. specialize (ps_un _ _ H Hu) as U. apply les_upd_in in H2 as [[E2 _]|[H2 _]].
    + inv E2. rewrite C. eapply U; eauto.
    + eapply U; eauto.
Qed.

Lemma PS_reason p es i s : PS p es -> nth_error ss i = Some s -> s_reason s <> RDecision ->
  exists rl, reason_lits (p_long p) (s_reason s) = Ret rl /\ rsn es0 s rl /\ forall x, In x rl -> before ss i (neg x).
Proof.
  intros H E Hr. pose proof (PS_trail _ _ H) as Et.
  destruct (reason_lits_ok n es p i s (ps_pi _ _ H)) as (rl & A & B & C); auto; [rewrite Et; auto|].
  rewrite Et in C. exists rl. split; auto. split; auto. eapply rsn_ESH; [apply H|]; auto.
Qed.

(** The derived clause. *)
Record derived_ok (cl : list N) (der : list N) (u : step) : Prop := {
  do_u : exists i, nth_error ss i = Some u /\ lpos ss (s_lit u) = Some i;
  do_lev : s_level u = d;
  do_rest : forall x, In x der -> In (neg x) (slits ss) /\ 1 <= slev ss (neg x) < d;
  do_nd : NoDup der;
  do_imp : forall U, closed es0 ss U -> (forall x, In x (der ++ [neg (s_lit u)]) -> U (neg x)) ->
    forall x, In x cl -> U (neg x) }.

Lemma uip_loop_ok cl k : k <= length ss -> forall p es an cb, PS p es -> UI k an -> CB n cb -> 1 <= an_count an ->
  (forall U, closed es0 ss U -> obl U k an -> forall x, In x cl -> U (neg x)) ->
  exists p' es' an' cb' der u, uip_loop k p an cb = Ret (p', an', cb') /\ PS p' es' /\ CBs cb cb' /\
    an_count an' = 0 /\ allf (an_current an') /\ length ss <= length (an_current an') /\
    d < length (an_glue_flags an') /\ allf (an_glue_flags an') /\ an_min an' = m0 /\
    an_derived an' = der ++ [neg (s_lit u)] /\ derived_ok cl der u.
Proof.
  pose proof (pi_tr _ _ _ _ HP0) as HT.
  induction k as [|k IH]; intros Hk p es an cb HS HU HC Hc HI.
  { exfalso. rewrite (ui_cnt _ _ HU) in Hc. unfold cnt in Hc. simpl in Hc. lia. }
  cbn [uip_loop]. rewrite (PS_trail _ _ HS). pose proof (ui_len _ _ HU) as HL.
  rewrite (vget_nth false) by lia. cbn [bind]. fold (flag (an_current an) k). rewrite vset_lt by lia. cbn [bind].
  destruct (nth_error ss k) as [s|] eqn:Es; [|apply nth_error_None in Es; lia].
  assert (Hlk : levi ss k = s_level s) by (unfold levi; rewrite Es; auto).
  assert (Hfl : forall j, flag (upd (an_current an) k false) j = true <-> j <> k /\ flag (an_current an) j = true).
  { intro j. rewrite flag_upd. destruct (Nat.ltb_spec k (length (an_current an))); [|lia]. rewrite andb_true_r.
    destruct (Nat.eqb_spec k j); intuition congruence. }
  pose proof (cnt_upd_ge ss d k (an_current an) k false (le_n k)) as Hcu.
  pose proof (ui_cnt _ _ HU) as Hcnt. rewrite cnt_S in Hcnt.
  destruct (flag (an_current an) k) eqn:F; cbn [negb].
  2:{ assert (Eq : upd (an_current an) k false = an_current an).
      { apply nth_ext with (d := false) (d' := false); [apply upd_length|]. intros j _.
        change (flag (upd (an_current an) k false) j = flag (an_current an) j).
        rewrite flag_upd. destruct (Nat.eqb_spec k j) as [<-|]; cbn [andb]; auto. destruct (_ <? _); auto. }
      rewrite Eq. replace (an_set_current an (an_current an)) with an by (destruct an; reflexivity).
      apply (IH ltac:(lia) p es an cb); auto.
      - constructor; try apply HU.
        + intros i Fi. destruct (ui_cur _ _ HU i Fi) as [[G1 G2]|G]; auto. left. split; auto.
          destruct (Nat.eq_dec i k); [congruence|lia].
        + rewrite Hcnt. simpl. lia.
      - intros U HU' [O1 O2] x Hx. apply (HI U HU'); auto. split; auto. intros i s' Li Ei Fi Hl.
        apply (O2 i s'); auto. destruct (Nat.eq_dec i k); [congruence|lia]. }
  (* the current literal is at the conflict level *)
  assert (Hlev : s_level s = d).
  { destruct (ui_cur _ _ HU k F) as [[_ G]|(x & G1 & G2)]; [congruence|]. exfalso.
    destruct (ui_der _ _ HU x G1) as (G3 & _). destruct (lpos_some _ _ _ G2) as (s' & G4 & G5).
    pose proof (tr_slev n t HT _ _ G4) as G6. rewrite G5 in G6. rewrite Es in G4. inv G4.
    rewrite Hlk in Hcnt. destruct (Nat.eqb_spec (s_level s') d) as [Q|Q]; [lia|].
    rewrite (cnt_0 ss d k) in Hcnt; [simpl in Hcnt; lia|].
    intros i Li Fi El. unfold levi in El. destruct (nth_error ss i) eqn:Ei; [|lia].
    pose proof (tr_mono n t HT i k _ _ ltac:(lia) Ei Es). lia. }
  rewrite Hlk, Hlev, Nat.eqb_refl in Hcnt. cbn [andb one] in Hcnt.
  rewrite (proj2 (vget_ok _ _ _) Es). cbn [bind].
  unfold an_set_count, an_set_current. cbn [an_current an_glue_flags an_derived an_count an_min].
  destruct (Nat.ltb_spec 0 (an_count an)) as [_|G]; [|lia].
  destruct (Nat.eqb_spec (an_count an - 1) 0) as [Z|Z].
  - (* first UIP *)
    assert (Hnp : forall i, i < k -> flag (an_current an) i = true -> levi ss i = d -> False).
    { intros i Li Fi El. pose proof (cnt_pos ss d k (an_current an) i Li Fi El). lia. }
    destruct (clear_flags_ok (an_derived an)) with (cur := upd (an_current an) k false) as (cur' & E1 & E2 & E3).
    { intros x Hx. destruct (ui_der _ _ HU x Hx) as (_ & i & G & _). eapply lpos_In; eauto. }
    { rewrite upd_length. auto. }
    rewrite E1. cbn [bind]. rewrite lnot_neg.
    exists p, es. eexists _, cb, (an_derived an), s. split; [reflexivity|].
    unfold an_set_derived, an_set_current. cbn [an_current an_glue_flags an_derived an_count an_min].
    split; auto. split; [apply CBs_refl; auto|]. split; [auto|]. split; [|split; [|split; [|split; [|split; [|split]]]]]; auto; try apply HU.
    + intros i Fi. apply flag_nth in Fi. destruct (E3 i Fi) as [F1 F2]. apply Hfl in F1 as [F0 F1].
      destruct (ui_cur _ _ HU i F1) as [[G1 G2]|(x & G1 & G2)]; [|eapply F2; eauto]. apply (Hnp i); auto. lia.
    + rewrite E2, upd_length. auto.
    + constructor; auto; try apply HU.
      * exists k. split; auto. apply (tr_canon n t HT k s Es). right. lia.
      * intros x Hx. destruct (ui_der _ _ HU x Hx) as (G1 & i & G2 & _). split; auto. eapply lpos_In; eauto.
      * intros U HU' Ho. apply (HI U HU'). split.
        -- intros x Hx. apply Ho. apply in_or_app. auto.
        -- intros i s' Li Ei Fi Hl. destruct (Nat.eq_dec i k) as [->|Ne].
           ++ replace s' with s by congruence. rewrite <- (neg_neg (s_lit s)). apply Ho. apply in_or_app. simpl. auto.
           ++ exfalso. apply (Hnp i); auto; [lia|]. unfold levi. rewrite Ei. auto.
  - (* resolve with the reason *)
    assert (Hr : s_reason s <> RDecision).
    { intro R. rewrite (cnt_0 ss d k) in Hcnt; [lia|]. intros i Li Fi El. unfold levi in El.
      destruct (nth_error ss i) eqn:Ei; [|lia]. pose proof (dec_first n t k s i _ HT Es R Li Ei). lia. }
    set (an2 := mkAn (upd (an_current an) k false) (an_glue_flags an) (an_derived an) (an_count an - 1) (an_min an)).
    assert (HU2 : UI k an2).
    { constructor; cbn [an2 an_current an_glue_flags an_derived an_count an_min]; try apply HU.
      - rewrite upd_length. auto.
      - intros i Fi. apply Hfl in Fi as [Ne Fi]. destruct (ui_cur _ _ HU i Fi) as [[G1 G2]|G]; auto. left. split; auto. lia.
      - intros x Hx. destruct (ui_der _ _ HU x Hx) as (G1 & i & G2 & G3). split; auto. exists i. split; auto.
        apply Hfl. split; auto. intros ->. destruct (lpos_some _ _ _ G2) as (s' & G4 & G5).
        pose proof (tr_slev n t HT _ _ G4) as G6. rewrite G5 in G6. replace s' with s in G6 by congruence. lia.
      - rewrite Hcu. lia. }
    assert (Hstep : exists p1 es1, (match s_reason s with
            | RLong c =>
                let* (a', g') := bump_long_clause t (p_long p) c (an_glue_flags an) in
                Ret (p_set_long p a', an_set_glue an2 g')
            | _ => Ret (p, an2)
            end) = Ret (p1, an2) /\ PS p1 es1).
    { destruct (s_reason s) as [| |l|c] eqn:Er; try (exists p, es; split; auto; fail).
      pose proof (pi_ri _ _ _ _ (ps_pi _ _ HS) k s) as R. rewrite (PS_trail _ _ HS) in R. specialize (R Es). rewrite Er in R.
      destruct R as (h & r & R1 & R2).
      destruct (PS_bump p es c h (s_lit s :: r) (an_glue_flags an) HS R1) as (a' & es' & E1 & E2).
      - intros x [<-|Hx]; [left; apply in_slits; eauto|right; eapply before_in; eauto].
      - apply HU.
      - apply HU.
      - rewrite E1. cbn [bind]. exists (p_set_long p a'), es'. split; auto. }
    destruct Hstep as (p1 & es1 & E1 & HS1). rewrite E1. cbn [bind].
    destruct (PS_reason p1 es1 k s HS1 Es Hr) as (rl & E2 & R2 & B2). rewrite E2. cbn [bind].
    destruct (add_literals_ok k rl B2 an2 cb HU2 HC) as (an3 & cb3 & E3 & HU3 & HC3 & L3 & _ & O3).
    rewrite E3. cbn [bind].
    destruct (IH ltac:(lia) p1 es1 an3 cb3 HS1 HU3 (proj1 HC3)) as (p' & es' & an' & cb' & der & u & G1 & G2 & G3 & G4).
    + cbn [an2 an_count] in L3. lia.
    + intros U HU' Ho x Hx. destruct (O3 U HU' Ho) as [[O1 O2] O4]. apply (HI U HU'); auto. split; auto.
      intros i s' Li Ei Fi Hl. destruct (Nat.eq_dec i k) as [->|Ne].
      * replace s' with s by congruence. apply (HU' k s rl); auto.
      * apply (O2 i s'); auto; [lia|]. apply Hfl. auto.
    + exists p', es', an', cb', der, u. split; auto. split; auto. split; [eapply CBs_trans; eauto|]. auto.
Qed.
End Uip.

(** ** The whole derivation *)
Definition MC (m : minim) : Prop :=
  mi_clean m = [] /\ (forall i b, nth_error (mi_cache m) i <> Some (Some b)) /\
  (forall i f, 1 <= i -> nth_error (mi_first m) i <> Some (Some f)).
(** The scratch buffers between two conflicts. *)
Record AN (an : analysis) : Prop := {
  an_cur0 : allf (an_current an);
  an_glue0 : allf (an_glue_flags an);
  an_cnt0 : an_count an = 0;
  an_mc : MC (an_min an) }.

Lemma vresize_max {A} (l : list A) k (x : A) : k <= length (vresize l (Nat.max (length l) k) x).
Proof. rewrite vresize_length. lia. Qed.

Lemma allf_flag l i : allf l -> flag l i = false.
Proof. intro H. destruct (flag l i) eqn:E; auto. apply flag_nth in E. exfalso. eapply H; eauto. Qed.

Lemma derive_ok n es p an c cb : PI n es p -> 1 <= decision_level (p_trail p) -> AN an -> CB n cb -> conf_ok n es p c ->
  exists cl p' es' an' cb' der u, derive_1uip_clause an p c cb = Ret (p', an', cb') /\
    conflict_lits (p_long p) c = Ret cl /\ PS n es p p' es' /\ CBs n cb cb' /\ AN an' /\
    decision_level (p_trail p) < length (an_glue_flags an') /\
    an_derived an' = der ++ [neg (s_lit u)] /\ derived_ok es p cl der u.
Proof.
  intros HP Hd HA HC (cl & Ecl & Hst & Hf & x & Hx & Hlev). pose proof (pi_tr _ _ _ _ HP) as HT.
  unfold derive_1uip_clause. set (an1 := update_trail_len (an_set_derived an []) (p_trail p)).
  assert (HPS0 : PS n es p p es). { constructor; auto; [destruct p; reflexivity|apply ESH_refl]. }
  assert (HU1 : UI p (an_min an) (length (t_steps (p_trail p))) an1).
  { constructor; unfold an1, update_trail_len, an_set_derived; cbn [an_current an_glue_flags an_derived an_count an_min]; auto.
    - apply vresize_max.
    - pose proof (vresize_max (an_glue_flags an) (decision_level (p_trail p) + 1) false). lia.
    - apply allf_vresize, HA.
    - intros i F. rewrite allf_flag in F; [discriminate|]. apply allf_vresize, HA.
    - intros y [].
    - constructor.
    - rewrite (an_cnt0 _ HA), cnt_0; auto. intros i _ F. rewrite allf_flag in F; [discriminate|]. apply allf_vresize, HA. }
  assert (Hstep : exists p1 es1, (match c with
        | CLong c =>
            let* (a', g') := bump_long_clause (p_trail p) (p_long p) c (an_glue_flags an1) in
            Ret (p_set_long p a', an_set_glue an1 g')
        | _ => Ret (p, an1)
        end) = Ret (p1, an1) /\ PS n es p p1 es1).
  { destruct c as [a b|c]; [exists p, es; split; auto|]. destruct Hst as (h & Hi & Hne).
    destruct (PS_bump n es p HP p es c h cl (an_glue_flags an1) HPS0 Hi) as (a' & es' & E1 & E2).
    - intros y Hy. right. auto.
    - apply HU1.
    - apply HU1.
    - rewrite E1. cbn [bind]. exists (p_set_long p a'), es'. split; auto. }
  destruct Hstep as (p1 & es1 & E1 & HS1). rewrite E1. cbn [bind].
  assert (Ecl1 : conflict_lits (p_long p1) c = Ret cl).
  { destruct c as [a b|c]; [exact Ecl|]. destruct Hst as (h & Hi & Hne).
    destruct (ESH_in _ _ _ _ _ (ps_es _ _ _ _ _ HS1) Hi) as (h' & Hi' & _).
    apply (LR_lits _ _ (pi_lr _ _ _ _ (ps_pi _ _ _ _ _ HS1)) _ _ _ Hi'). }
  rewrite Ecl1. cbn [bind].
  assert (Hb : forall y, In y cl -> before (t_steps (p_trail p)) (length (t_steps (p_trail p))) (neg y)).
  { intros y Hy. destruct (lpos_in _ _ (Hf y Hy)) as [i Ei]. exists i. split; auto. eapply lpos_lt; eauto. }
  destruct (add_literals_ok n es p HP Hd (an_min an) _ cl Hb an1 cb HU1 HC) as (an2 & cb2 & E2 & HU2 & HC2 & L2 & D2 & O2).
  rewrite E2. cbn [bind].
  destruct (uip_loop_ok n es p HP Hd (an_min an) cl (length (t_steps (p_trail p))) (le_n _) p1 es1 an2 cb2 HS1 HU2 (proj1 HC2))
    as (p' & es' & an' & cb' & der & u & E3 & G1 & G2 & G3 & G4 & G5 & G6 & G7 & G8 & G9 & G10).
  - eapply D2; eauto.
  - intros U HU' Ho. apply (O2 U HU' Ho).
  - rewrite E3. cbn [bind]. rewrite G3, Nat.eqb_refl.
    exists cl, p', es', an', cb', der, u. split; auto. split; auto. split; auto. split; [eapply CBs_trans; eauto|].
    split; [constructor; auto; rewrite G8; apply HA|]. auto.
Qed.
