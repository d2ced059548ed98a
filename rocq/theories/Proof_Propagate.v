(** Unit propagation keeps the invariant and is complete. *)
From Coq Require Import NArith List Bool Arith Lia Permutation Sorted ZifyN ZifyNat ZifyBool.
From Verif Require Import Model_Base Model_Lit Model_PartialAssignment Model_Header Model_Arena Model_Prop Model_MutScan
  Spec Drivers_Arena Proof_Base Proof_PA Proof_Lit Proof_Header Proof_Arena Proof_ArenaHist Proof_Long Proof_Trail Proof_Inv.
Import ListNotations.

Lemma binary_loop_ok W n es dbg cl others : forall p, PIw W n es p -> vidx cl < n ->
  (forall y, In y others -> In y (bin (p_binary p) cl)) ->
  In (neg cl) (slits (t_steps (p_trail p))) -> slev (t_steps (p_trail p)) (neg cl) = decision_level (p_trail p) ->
  exists p' r, binary_loop dbg p cl others = Ret (p', r) /\ PIw W n es p' /\ pext p p' /\
    t_propagated (p_trail p') = t_propagated (p_trail p) /\ p_long p' = p_long p /\ p_watches p' = p_watches p /\
    match r with
    | None => forall y, In y others -> In y (slits (t_steps (p_trail p')))
    | Some c => conf_ok n es p' c
    end.
Proof.
  induction others as [|y r IH]; intros p H Hc Ho Hn Hd.
  - exists p, None. simpl. do 2 (split; [auto|]). split; [apply pext_refl|]. do 3 (split; [auto|]). intros y [].
  - assert (Hy : In y (bin (p_binary p) cl)) by (apply Ho; left; auto).
    destruct (bi_sym _ _ (pi_bi _ _ _ _ H) _ _ Hc Hy) as [Hyv Hys].
    cbn [binary_loop]. rewrite (VR_true _ _ _ _ (pi_vr _ _ _ _ H) Hyv). cbn [bind].
    destruct (inb_spec y (slits (t_steps (p_trail p)))) as [I|I].
    + destruct (IH p H Hc) as (p' & r' & E & A & B & C & D & F & G); auto.
      { intros z Hz. apply Ho. right; auto. }
      exists p', r'. do 6 (split; [auto|]). destruct r' as [c|]; auto. intros z [<-|Hz]; auto. eapply pext_in; eauto.
    + rewrite (VR_false _ _ _ _ (pi_vr _ _ _ _ H) Hyv). cbn [bind].
      destruct (inb_spec (neg y) (slits (t_steps (p_trail p)))) as [J|J].
      * exists p, (Some (CBinary cl y)). do 2 (split; [auto|]). split; [apply pext_refl|]. do 3 (split; [auto|]).
        exists [cl; y]. split; [reflexivity|]. split; [auto|]. split; [intros x [<-|[<-|[]]]; auto|].
        exists cl. split; [left; auto|auto].
      * set (s := mkStep y (decision_level (p_trail p)) (RBinary cl)).
        destruct (assign_raw_ok n dbg (p_values p) (p_trail p) s (pi_tr _ _ _ _ H) (pi_vr _ _ _ _ H) Hyv) as (v' & E & HV).
        { split; auto. }
        rewrite E. cbn [bind].
        assert (H1 : PIw W n es (p_push p v' s)).
        { apply PIw_push; auto. split; auto. }
        assert (X : pext p (p_push p v' s)) by (apply pext_push; discriminate).
        destruct (IH (p_push p v' s) H1 Hc) as (p' & r' & E' & A & B & C & D & F & G).
        { intros z Hz. apply Ho. right; auto. }
        { eapply pext_in; eauto. }
        { rewrite (pext_slev p), (pext_dl p); auto. }
        exists p', r'. split; [exact E'|]. split; auto. split; [eapply pext_trans; eauto|]. do 3 (split; [auto|]).
        destruct r' as [c|]; auto. intros z [<-|Hz]; auto. eapply pext_in; eauto.
        unfold p_push, p_set_vt, t_push. cbn [p_trail t_steps]. rewrite map_app. apply in_or_app. right. left. reflexivity.
Qed.

(** *** The circular search *)
Lemma search_loop_ok n vals ls cl len k : VR n vals ls -> (forall x, In x cl -> vidx x < n) -> length cl = 2 + len ->
  forall pos, pos < len ->
  exists pos' o, search_loop vals cl len k pos = Ret (pos', o) /\ pos' < len /\
    match o with
    | Some (x, t) => nth_error cl (2 + pos') = Some x /\ ~ In (neg x) ls /\ t = inb x ls
    | None => forall j, j < k -> exists x, nth_error cl (2 + (pos + j) mod len) = Some x /\ In (neg x) ls
    end.
Proof.
  intros HV Hr HL. induction k as [|k IH]; intros pos Hp.
  - exists pos, None. split; [reflexivity|]. split; auto. intros; lia.
  - cbn [search_loop]. destruct (vget_in cl (2 + pos) ltac:(lia)) as [x Ex]. rewrite Ex. cbn [bind].
    apply vget_ok in Ex. pose proof (Hr x (nth_error_In _ _ Ex)) as Hx.
    rewrite (VR_false _ _ _ _ HV Hx). cbn [bind].
    destruct (inb_spec (neg x) ls) as [I|I]; cbn [negb].
    + set (nx := if Nat.eqb (pos + 1) len then 0 else pos + 1).
      assert (Hnx : nx < len) by (unfold nx; destruct (Nat.eqb_spec (pos + 1) len); lia).
      destruct (IH nx Hnx) as (pos' & o & E & A & B). exists pos', o. split; [exact E|]. split; auto.
      destruct o as [[y t]|]; auto. intros j Hj. destruct j as [|j].
      * exists x. rewrite Nat.add_0_r, Nat.mod_small by auto. auto.
      * destruct (B j ltac:(lia)) as (y & Ey & Iy). exists y. split; auto. rewrite <- Ey. f_equal. f_equal.
        unfold nx. destruct (Nat.eqb_spec (pos + 1) len).
        -- replace (pos + S j) with (j + 1 * len) by lia. rewrite Nat.mod_add by lia. reflexivity.
        -- f_equal. lia.
    + rewrite (VR_true _ _ _ _ HV Hx). cbn [bind]. exists pos, (Some (x, inb x ls)). auto.
Qed.

Lemma search_loop_full n vals ls a b r pos : VR n vals ls -> (forall x, In x (a :: b :: r) -> vidx x < n) -> pos < length r ->
  exists pos' o, search_loop vals (a :: b :: r) (length r) (length r) pos = Ret (pos', o) /\ pos' < length r /\
    match o with
    | Some (x, t) => nth_error r pos' = Some x /\ ~ In (neg x) ls /\ t = inb x ls
    | None => forall x, In x r -> In (neg x) ls
    end.
Proof.
  intros HV Hr Hp. destruct (search_loop_ok n vals ls (a :: b :: r) (length r) (length r) HV Hr eq_refl pos Hp)
    as (pos' & o & E & A & B). exists pos', o. split; auto. split; auto. destruct o as [[x t]|]; auto.
  intros x Hx. apply In_nth_error in Hx as [j Ej]. assert (Hj : j < length r) by (apply nth_error_Some; congruence).
  destruct (B ((j + (length r - pos)) mod length r)) as (y & Ey & Iy); [apply Nat.mod_upper_bound; lia|].
  rewrite Nat.add_mod_idemp_r in Ey by lia. replace (pos + (j + (length r - pos))) with (j + 1 * length r) in Ey by lia.
  rewrite Nat.mod_add, Nat.mod_small in Ey by lia. cbn [nth_error Nat.add] in Ey. congruence.
Qed.

(** *** Watches *)
Lemma wcnt_app c a b : wcnt c (a ++ b) = wcnt c a + wcnt c b.
Proof. unfold wcnt. rewrite map_app. apply count_occ_app. Qed.
Lemma wcnt_cons c w a : wcnt c (w :: a) = one (Nat.eqb (w_clause w) c) + wcnt c a.
Proof. unfold wcnt. simpl. destruct (Nat.eq_dec (w_clause w) c), (Nat.eqb_spec (w_clause w) c); simpl; congruence. Qed.
Lemma wcnt_pos c a : 0 < wcnt c a -> exists w, In w a /\ w_clause w = c.
Proof. unfold wcnt. intro H. apply count_occ_In in H. apply in_map_iff in H as (w & E & Hi). eauto. Qed.
Lemma wcnt_in w a : In w a -> 0 < wcnt (w_clause w) a.
Proof. intro H. unfold wcnt. apply count_occ_In. apply in_map; auto. Qed.

Lemma clear_lit n l : (N.of_nat n <= 1073741824)%N -> vidx l < n -> clear l.
Proof.
  intros Hn Hv. unfold clear. rewrite vidx_div in Hv. pose proof (N.div_mod l 2 ltac:(lia)).
  pose proof (N.mod_lt l 2 ltac:(lia)). lia.
Qed.

(** The watch function while the list of [w0] is being scanned. *)
Definition Wk (w0 : N) (L : list watch) (bl : list (list watch)) (x : N) : list watch :=
  if (x =? w0)%N then L else wfun bl x.

(** Clauses of the scanned watches are satisfied. *)
Definition Kok (es : list lent) (ss : list step) (w0 : N) (ks : list watch) : Prop :=
  forall y h l, In y ks -> In (w_clause y, h, l) es -> l <> [] -> below ss (neg w0) l.

Lemma WF_replace n es w0 kept w y todo bl : WF n es (Wk w0 (kept ++ w :: todo) bl) -> vidx w0 < n ->
  w_clause y = w_clause w -> vidx (w_blocking y) < n ->
  (forall h l, In (w_clause y, h, l) es -> l <> [] -> In (w_blocking y) l) ->
  WF n es (Wk w0 (kept ++ y :: todo) bl).
Proof.
  intros H H0 Ec Hv Hb. constructor.
  - intros x v Hx Hi. unfold Wk in Hi. destruct (N.eqb_spec x w0) as [->|Ne].
    + assert (G : forall u, In u (kept ++ w :: todo) -> vidx (w_blocking u) < n /\ exists h l, In (w_clause u, h, l) es /\ (l <> [] -> In (w_blocking u) l)).
      { intros u Hu. apply (wf_ref _ _ _ H w0 u H0). unfold Wk. rewrite N.eqb_refl. auto. }
      apply in_app_or in Hi as [Hi|[->|Hi]]; [apply G, in_or_app; auto| |apply G, in_or_app; right; right; auto].
      destruct (G w) as (_ & h & l & A & B); [apply in_elt|]. split; auto. exists h, l. rewrite Ec. split; auto.
      intro Hl. apply (Hb h); auto. rewrite Ec. auto.
    + apply (wf_ref _ _ _ H x v Hx). unfold Wk. destruct (N.eqb_spec x w0); [contradiction|auto].
  - intros c h a b r Hi x Hx. rewrite <- (wf_cnt _ _ _ H c h a b r Hi x Hx). unfold Wk.
    destruct (N.eqb_spec x w0); auto. rewrite !wcnt_app, !wcnt_cons, Ec. reflexivity.
Qed.

Lemma WF_drop_dead n es w0 kept w todo bl h : WF n es (Wk w0 (kept ++ w :: todo) bl) -> vidx w0 < n ->
  NoDup (map le_ref es) -> In (w_clause w, h, []) es ->
  WF n es (Wk w0 (kept ++ todo) bl).
Proof.
  intros H H0 ND Hd. constructor.
  - intros x v Hx Hi. apply (wf_ref _ _ _ H x v Hx). unfold Wk in *. destruct (N.eqb_spec x w0); auto.
    apply in_app_or in Hi as [Hi|Hi]; apply in_or_app; [auto|right; right; auto].
  - intros c h' a b r Hi x Hx. rewrite <- (wf_cnt _ _ _ H c h' a b r Hi x Hx). unfold Wk.
    destruct (N.eqb_spec x w0); auto. rewrite !wcnt_app, !wcnt_cons.
    destruct (Nat.eqb_spec (w_clause w) c) as [E|E]; [|simpl; lia]. exfalso. subst c.
    clear - ND Hd Hi. induction es as [|e es IH]; [contradiction|]. simpl in ND. inversion ND; subst.
    destruct Hd as [->|Hd], Hi as [E|Hi]; try congruence; auto.
    + apply H1. apply in_map_iff. eexists. split; [|exact Hi]. reflexivity.
    + subst. apply H1. apply in_map_iff. eexists. split; [|exact Hd]. reflexivity.
Qed.

Lemma upd_in_other c h l es c' h' l' : c' <> c -> (In (c', h', l') (les_upd c h l es) <-> In (c', h', l') es).
Proof.
  intro Ne. rewrite les_upd_in. unfold le_ref. simpl. split.
  - intros [(E & _)|[A B]]; auto. inv E. congruence.
  - intro A. right. auto.
Qed.
Lemma upd_in_same c h l es h' l' : In (c, h', l') (les_upd c h l es) -> h' = h /\ l' = l.
Proof. rewrite les_upd_in. intros [(E & _)|[A B]]; [inv E; auto|]. unfold le_ref in B. simpl in B. congruence. Qed.
Lemma upd_in_same' c h l es h0 l0 : In (c, h0, l0) es -> In (c, h, l) (les_upd c h l es).
Proof. intro H. rewrite les_upd_in. left. split; auto. eexists. split; [exact H|reflexivity]. Qed.

Definition lw (p : prop) (a : arena) (ws : watches) : prop :=
  mkProp (p_unsat p) (p_values p) (p_binary p) a ws (p_trail p).

Lemma pext_lw p a ws : pext p (lw p a ws).
Proof. split; [exists []; rewrite app_nil_r; auto|auto]. Qed.

(** Changing one clause that is not a reason. *)
Lemma PIw_upd W n es p c h a b r h' a' b' r' ar ws W' : PIw W n es p -> In (c, h, a :: b :: r) es ->
  (forall s, In s (t_steps (p_trail p)) -> s_reason s <> RLong c) ->
  lh_ok h' -> Permutation (a :: b :: r) (a' :: b' :: r') -> N.to_nat (lh_search_pos h') < length r ->
  LR ar (les_upd c h' (a' :: b' :: r') es) -> ws_enabled ws = true -> length (ws_by_lit ws) = 2 * n ->
  WF n (les_upd c h' (a' :: b' :: r') es) W' ->
  (forall w, w = a' \/ w = b' -> In (neg w) (slits (firstn (t_propagated (p_trail p)) (t_steps (p_trail p)))) ->
     below (t_steps (p_trail p)) (neg w) (a :: b :: r)) ->
  PIw W' n (les_upd c h' (a' :: b' :: r') es) (lw p ar ws).
Proof.
  intros H Hi Hnr Hok HP Hs HLR Hen Hlen HWF HPL.
  destruct (pi_ll _ _ _ _ H _ _ _ Hi ltac:(discriminate)) as (L1 & L2 & L3).
  pose proof (Permutation_length HP) as PLen. cbn [length] in *.
  constructor; unfold lw; cbn [p_trail p_values p_long p_binary p_watches]; try apply H; auto.
  - intros c2 h2 l2 Hi2 Hne. destruct (Nat.eq_dec c2 c) as [->|Ne].
    + apply upd_in_same in Hi2 as [-> ->]. cbn [length]. split; [lia|]. split; [lia|].
      intros x Hx. apply L3. eapply Permutation_in; [apply Permutation_sym; exact HP|auto].
    + apply (upd_in_other c) in Hi2; auto. apply (pi_ll _ _ _ _ H _ _ _ Hi2 Hne).
  - intros i s E. pose proof (pi_ri _ _ _ _ H i s E) as R. destruct (s_reason s) as [| |x|c2] eqn:Er; auto.
    destruct R as (h2 & r2 & A & B). exists h2, r2. split; auto. apply upd_in_other; auto.
    intro. subst. apply (Hnr s); auto. eapply nth_error_In; eauto.
  - intros c2 h2 a2 b2 r2 Hi2 w Hw Hn. destruct (Nat.eq_dec c2 c) as [->|Ne].
    + apply upd_in_same in Hi2 as [-> E]. inv E. eapply below_perm; [exact HP|]. apply HPL; auto.
    + apply (upd_in_other c) in Hi2; auto. eapply (pi_pl _ _ _ _ H); eauto.
Qed.

Lemma Kok_mono es es' ss ext w0 ks : Kok es ss w0 ks -> ESR es es' -> In (neg w0) (slits ss) -> Kok es' (ss ++ ext) w0 ks.
Proof.
  intros H HE Hn y h l Hy Hi Hl. destruct (ESR_in_rev _ _ _ _ _ HE Hi) as (h0 & l0 & A & B & _).
  apply below_app; auto. eapply below_perm; [exact B|]. eapply H; eauto. intro. subst. apply Permutation_nil in B. auto.
Qed.

Lemma LR_refl_upd a es c h l : LR a es -> In (c, h, l) es -> les_upd c h l es = es.
Proof.
  intros H Hi. unfold les_upd. rewrite <- (map_id es) at 2. apply map_ext_in. intros [[c2 h2] l2] H2.
  unfold le_ref. simpl. destruct (Nat.eqb_spec c2 c); auto. subst.
  destruct (LR_fun _ _ H _ _ _ _ _ Hi H2); subst. reflexivity.
Qed.

Lemma les_upd_upd c h l h' l' es : les_upd c h' l' (les_upd c h l es) = les_upd c h' l' es.
Proof.
  unfold les_upd. rewrite map_map. apply map_ext. intro e. destruct (Nat.eqb_spec (le_ref e) c) as [E|E]; auto.
  - unfold le_ref at 1. simpl. rewrite Nat.eqb_refl. auto.
  - destruct (Nat.eqb_spec (le_ref e) c); [contradiction|auto].
Qed.

Lemma below_now n t w0 l cl : TR n t -> slev (t_steps t) (neg w0) = decision_level t -> In l cl -> In l (slits (t_steps t)) ->
  below (t_steps t) (neg w0) cl.
Proof. intros H Hd Hi Hl. exists l. split; auto. split; auto. rewrite Hd. apply (tr_slev_le n); auto. Qed.

Lemma nth_upd_cell {A} (l : list A) i x d : i < length l -> nth i (upd l i x) d = x.
Proof. intro H. apply nth_error_nth. apply upd_same; auto. Qed.
Lemma nth_upd_other {A} (l : list A) i j x d : i <> j -> nth j (upd l i x) d = nth j l d.
Proof. revert i j; induction l as [|y l IH]; intros [|i] [|j] H; simpl; auto; try congruence. Qed.

Lemma wfun_upd bl x v y n : length bl = 2 * n -> vidx x < n -> wfun (upd bl (cidx x) v) y = if (y =? x)%N then v else wfun bl y.
Proof.
  intros L Hx. unfold wfun. destruct (N.eqb_spec y x) as [->|Ne].
  - apply nth_upd_cell. rewrite L. apply cidx_lt; auto.
  - apply nth_upd_other. intro E. apply cidx_inj in E. congruence.
Qed.

Definition scan_state n es p w0 L : Prop :=
  PIw (Wk w0 L (ws_by_lit (p_watches p))) n es p /\ vidx w0 < n /\ wfun (ws_by_lit (p_watches p)) w0 = [] /\
  In (neg w0) (slits (t_steps (p_trail p))) /\ slev (t_steps (p_trail p)) (neg w0) = decision_level (p_trail p).

Lemma watch_body_ok n es p w0 dbg kept w todo :
  scan_state n es p w0 (kept ++ w :: todo) -> Kok es (t_steps (p_trail p)) w0 kept ->
  exists p' es' rs act, watch_body dbg w0 (p, None) w = Ret ((p', rs), act) /\ ESR es es' /\ pext p p' /\
    t_propagated (p_trail p') = t_propagated (p_trail p) /\
    match act with
    | MSKeep y => rs = None /\ scan_state n es' p' w0 (kept ++ y :: todo) /\ Kok es' (t_steps (p_trail p')) w0 (kept ++ [y])
    | MSRemove => rs = None /\ scan_state n es' p' w0 (kept ++ todo) /\ Kok es' (t_steps (p_trail p')) w0 kept
    | MSKeepStop y => scan_state n es' p' w0 (kept ++ y :: todo) /\ exists c, rs = Some c /\ conf_ok n es' p' c
    end.
Proof.
  intros (H & H0 & HE & Hn & Hd) HK. 
  set (ss := t_steps (p_trail p)) in *. set (bl := ws_by_lit (p_watches p)) in *.
  assert (TRn := pi_tr _ _ _ _ H). assert (HV := pi_vr _ _ _ _ H).
  assert (Hw0 : ~ In w0 (slits ss)) by (intro G; apply (VR_cons _ _ _ _ HV G Hn)).
  destruct (wf_ref _ _ _ (pi_wf _ _ _ _ H) w0 w H0) as (Hbv & h & l & Hin & Hbl).
  { unfold Wk. rewrite N.eqb_refl. apply in_elt. }
  set (c := w_clause w) in *.
  assert (Hfun : forall h2 l2, In (c, h2, l2) es -> h2 = h /\ l2 = l).
  { intros h2 l2 H2. eapply LR_fun; eauto. apply (pi_lr _ _ _ _ H). }
  assert (KeepK : forall y, w_clause y = c -> below ss (neg w0) l -> Kok es ss w0 (kept ++ [y])).
  { intros y Ey Hb z h2 l2 Hz Hi2 Hl2. apply in_app_or in Hz as [Hz|[<-|[]]]; [eapply HK; eauto|].
    rewrite Ey in Hi2. destruct (Hfun _ _ Hi2); subst. auto. }
  unfold watch_body. fold c. rewrite (VR_true _ _ _ _ HV Hbv). cbn [bind]. fold ss.
  destruct (inb_spec (w_blocking w) (slits ss)) as [I|I].
  { (* blocking literal true *)
    exists p, es, None, (MSKeep w). split; [reflexivity|]. split; [apply ESR_refl|]. split; [apply pext_refl|]. split; [auto|].
    split; auto. split; [split; auto|]. intros z h2 l2 Hz Hi2 Hl2. apply in_app_or in Hz as [Hz|[<-|[]]]; [eapply HK; eauto|].
    fold c in Hi2. destruct (Hfun _ _ Hi2); subst. eapply below_now; eauto. }
  rewrite (LR_lits _ _ (pi_lr _ _ _ _ H) _ _ _ Hin). cbn [bind].
  destruct l as [|a [|b r]].
  { (* deleted clause *)
    cbn [length Nat.ltb Nat.leb]. exists p, es, None, MSRemove. split; [reflexivity|]. split; [apply ESR_refl|]. split; [apply pext_refl|].
    split; [auto|]. split; auto. split; auto. split; auto.
    assert (HW : WF n es (Wk w0 (kept ++ todo) bl)).
    { eapply WF_drop_dead; eauto; [apply (pi_wf _ _ _ _ H)|eapply LR_nodup; apply (pi_lr _ _ _ _ H)]. }
    destruct H. constructor; auto. }
  { destruct (pi_ll _ _ _ _ H _ _ _ Hin ltac:(discriminate)) as (L & _). simpl in L. lia. }
  destruct (pi_ll _ _ _ _ H _ _ _ Hin ltac:(discriminate)) as (LL1 & LL2 & LL3).
  destruct (Nat.ltb_spec (length (a :: b :: r)) 2) as [Lt|_]; [simpl in Lt; lia|].
  rewrite (LR_header _ _ (pi_lr _ _ _ _ H) _ _ _ Hin). cbn [bind vget nth_error].
  assert (Hab : exists other, select_other dbg w0 a b = Ret other /\ ((a = w0 /\ b = other) \/ (a = other /\ b = w0))).
  { assert (C : 0 < wcnt c (Wk w0 (kept ++ w :: todo) bl w0)).
    { unfold Wk. rewrite N.eqb_refl. apply wcnt_in. apply in_elt. }
    rewrite (wf_cnt _ _ _ (pi_wf _ _ _ _ H) c h a b r Hin w0 H0) in C.
    destruct (N.eqb_spec w0 a) as [->|Na].
    - exists b. rewrite select_other_first. auto.
    - destruct (N.eqb_spec w0 b) as [->|Nb]; [|simpl in C; lia]. exists a. rewrite select_other_second. auto. }
  destruct Hab as (other & Eo & Hab). rewrite Eo. cbn [bind].
  assert (HPo : Permutation (a :: b :: r) (other :: w0 :: r)).
  { destruct Hab as [[-> ->]|[-> ->]]; [apply perm_swap|apply Permutation_refl]. }
  assert (Hov : vidx other < n) by (apply LL3; eapply Permutation_in; [apply Permutation_sym; exact HPo|left; auto]).
  rewrite (VR_true _ _ _ _ HV Hov). cbn [bind]. fold ss.
  destruct (inb_spec other (slits ss)) as [Io|Io].
  { (* other watched literal true *)
    exists p, es, None, (MSKeep (mkWatch c other)). split; [reflexivity|]. split; [apply ESR_refl|]. split; [apply pext_refl|]. split; [auto|].
    assert (Ino : In other (a :: b :: r)) by (eapply Permutation_in; [apply Permutation_sym; exact HPo|left; auto]).
    split; auto. split.
    - split; [|auto]. assert (HW : WF n es (Wk w0 (kept ++ mkWatch c other :: todo) bl)).
      { apply WF_replace with (w := w); auto; [apply (pi_wf _ _ _ _ H)|]. cbn [w_clause w_blocking]. intros h2 l2 Hi2 _. destruct (Hfun _ _ Hi2); subst. auto. }
      destruct H. constructor; auto.
    - apply KeepK; auto. eapply below_now; eauto. }
  replace (length (a :: b :: r) - 2) with (length r) by (simpl; lia).
  destruct (search_loop_full n _ _ a b r (N.to_nat (lh_search_pos h)) HV LL3) as (pos & o & Es & Hpos & Ho).
  { cbn [length] in LL2. lia. }
  rewrite Es. cbn [bind].
  assert (Hpos31 : (N.of_nat pos < 2147483648)%N).
  { pose proof (proj2 (proj2 (LR_ok _ _ (pi_lr _ _ _ _ H) _ _ _ Hin))) as Cl. unfold clear in Cl. cbn [length] in Cl. lia. }
  set (h' := lh_set_search_pos h (N.of_nat pos)).
  assert (Hok' : lh_ok h') by (apply lh_ok_set_search_pos; eapply LR_ok; eauto; apply (pi_lr _ _ _ _ H)).
  assert (Hsh : same_hdr h h') by (split; [apply redundant_set_search_pos|apply protected_set_search_pos]).
  assert (Hsp : N.to_nat (lh_search_pos h') = pos) by (unfold h'; rewrite lh_search_pos_set by auto; lia).
  destruct (LR_set_header _ _ (pi_lr _ _ _ _ H) c h (a :: b :: r) h' Hin Hok') as (a1 & Ea1 & HL1).
  unfold store_search_pos. fold h'. rewrite Ea1. cbn [bind]. clearbody h'.
  assert (Hin1 : In (c, h', a :: b :: r) (les_upd c h' (a :: b :: r) es)) by (eapply upd_in_same'; eauto).
  assert (Hnr : forall s, In s ss -> s_reason s <> RLong c).
  { intros s Hs Er. apply In_nth_error in Hs as [i Ei]. pose proof (pi_ri _ _ _ _ H i s Ei) as R. rewrite Er in R.
    destruct R as (h2 & r2 & A & _). destruct (Hfun _ _ A) as [_ E].
    assert (E2 : s_lit s = a) by congruence.
    assert (G : In (s_lit s) (slits ss)) by (apply in_slits; eauto). rewrite E2 in G.
    destruct Hab as [[E3 _]|[E3 _]]; rewrite E3 in G; contradiction. }
  assert (NDr := LR_nodup _ _ (pi_lr _ _ _ _ H)).
  assert (PLold : forall w, w = a \/ w = b -> In (neg w) (slits (firstn (t_propagated (p_trail p)) ss)) -> below ss (neg w) (a :: b :: r)).
  { intros v Hv Hvn. eapply (pi_pl _ _ _ _ H); eauto. }
  destruct o as [[sl tv]|].
  - destruct Ho as (Esl & Hsl & ->). fold ss in Hsl |- *. assert (Insl : In sl r) by (eapply nth_error_In; eauto).
    destruct (inb_spec sl (slits ss)) as [It|It].
    + (* a true literal: new blocking literal *)
      exists (p_set_long p a1), (les_upd c h' (a :: b :: r) es), None, (MSKeep (mkWatch c sl)).
      split; [reflexivity|]. split; [eapply ESR_upd; eauto|].
      split; [apply (pext_lw p a1 (p_watches p))|]. split; [auto|]. split; auto. split.
      * split; [|auto]. change (p_set_long p a1) with (lw p a1 (p_watches p)).
        eapply PIw_upd; eauto; try apply H; [cbn [length] in *; lia|].
        cbn [lw p_watches]. fold bl.
        eapply WF_replace with (w := w); auto; [|apply LL3; right; right; auto|].
        -- constructor.
           ++ intros x v Hx Hv. destruct (wf_ref _ _ _ (pi_wf _ _ _ _ H) x v Hx Hv) as (A & h2 & l2 & B & D). split; auto.
              destruct (Nat.eq_dec (w_clause v) c) as [E|E].
              ** rewrite E in B. destruct (Hfun _ _ B) as [-> ->]. exists h', (a :: b :: r). rewrite E. auto.
              ** exists h2, l2. split; auto. apply upd_in_other; auto.
           ++ intros c2 h2 a2 b2 r2 Hi2 x Hx. destruct (Nat.eq_dec c2 c) as [->|E].
              ** apply upd_in_same in Hi2 as [-> E]. inversion E; subst a2 b2 r2; clear E. eapply (wf_cnt _ _ _ (pi_wf _ _ _ _ H)); eauto.
              ** apply (upd_in_other c) in Hi2; auto. eapply (wf_cnt _ _ _ (pi_wf _ _ _ _ H)); eauto.
        -- cbn [w_clause w_blocking]. intros h2 l2 Hi2 _. apply upd_in_same in Hi2 as [-> ->]. right; right; auto.
      * cbn [p_set_long p_trail]. fold ss. rewrite <- (app_nil_r ss).
        eapply Kok_mono; [|eapply ESR_upd; eauto|auto]. apply KeepK; auto. eapply below_now; eauto. right; right; auto.
    + (* a non-false literal: move the watch *)
      assert (Hslw : sl <> w0) by (intro; subst; contradiction).
      assert (Hslv : vidx sl < n) by (apply LL3; right; right; auto).
      unfold push_watch. rewrite (pi_en _ _ _ _ H). unfold dassert. cbn [negb andb]. rewrite andb_false_r.
      rewrite (vget_nth []) by (rewrite (pi_wl _ _ _ _ H); apply cidx_lt; auto). cbn [bind]. fold bl. fold (wfun bl sl).
      rewrite vset_lt by (unfold bl; rewrite (pi_wl _ _ _ _ H); apply cidx_lt; auto). cbn [bind].
      cbn [upd Nat.add]. destruct (upd_split r pos sl w0 Esl) as (r1 & r2 & Er & Lr1 & Eu). rewrite Eu.
      assert (HP : Permutation (a :: b :: r) (sl :: other :: r1 ++ w0 :: r2)).
      { eapply Permutation_trans; [exact HPo|]. rewrite Er. eapply Permutation_trans; [apply perm_skip, perm_skip, Permutation_sym, Permutation_middle|].
        eapply Permutation_trans; [|apply perm_skip, perm_skip, Permutation_middle].
        eapply Permutation_trans; [apply perm_skip, perm_swap|]. apply perm_swap. }
      set (ls := sl :: other :: r1 ++ w0 :: r2) in *.
      destruct (LR_set_lits _ _ HL1 c h' (a :: b :: r) ls Hin1) as (a2 & Ea2 & HL2).
      { symmetry. apply Permutation_length; auto. }
      { apply Forall_forall. intros x Hx. eapply clear_lit; [apply (pi_n _ _ _ _ H)|]. apply LL3.
        eapply Permutation_in; [apply Permutation_sym; exact HP|auto]. }
      rewrite Ea2. cbn [bind]. rewrite les_upd_upd in HL2.
      set (bl' := upd bl (cidx sl) (wfun bl sl ++ [mkWatch c other])).
      exists (lw p a2 (mkWatches bl' (ws_enabled (p_watches p)))), (les_upd c h' ls es), None, MSRemove.
      assert (HES : ESR es (les_upd c h' ls es)) by (eapply ESR_upd; eauto).
      assert (Wbl' : forall x, wfun bl' x = if (x =? sl)%N then wfun bl sl ++ [mkWatch c other] else wfun bl x).
      { intro x. unfold bl'. apply (wfun_upd _ _ _ _ n); auto. apply (pi_wl _ _ _ _ H). }
      split; [rewrite (pi_en _ _ _ _ H); reflexivity|]. split; auto. split; [apply pext_lw|]. split; [auto|]. split; auto. split.
      * split; [|split; [auto|split; [|auto]]].
        2:{ cbn [lw p_watches ws_by_lit]. rewrite Wbl'. destruct (N.eqb_spec w0 sl); [congruence|auto]. }
        eapply PIw_upd; eauto.
        { cbn [length] in *; lia. }
        { cbn [ws_enabled]. apply H. }
        { unfold bl'. cbn [ws_by_lit]. rewrite upd_length. apply H. }
        { cbn [lw p_watches ws_by_lit]. constructor.
          - intros x v Hx Hv. assert (G : In v (Wk w0 (kept ++ w :: todo) bl x) \/ v = mkWatch c other).
            { unfold Wk in *. destruct (N.eqb_spec x w0).
              - left. apply in_app_or in Hv as [Hv|Hv]; apply in_or_app; [auto|right; right; auto].
              - rewrite Wbl' in Hv. destruct (N.eqb_spec x sl); [subst|auto].
                apply in_app_or in Hv as [Hv|[<-|[]]]; auto. }
            destruct G as [G|G].
            + destruct (wf_ref _ _ _ (pi_wf _ _ _ _ H) x v Hx G) as (A & h2 & l2 & B & D). split; auto.
              destruct (Nat.eq_dec (w_clause v) c) as [E|E].
              * rewrite E in B. destruct (Hfun _ _ B) as [-> ->]. exists h', ls. rewrite E. split; [eapply upd_in_same'; eauto|].
                intros _. eapply Permutation_in; [exact HP|]. apply D. discriminate.
              * exists h2, l2. split; auto. apply upd_in_other; auto.
            + subst v. cbn [w_clause w_blocking]. split; auto. exists h', ls. split; [eapply upd_in_same'; eauto|].
              intros _. right. left. auto.
          - intros c2 h2 a3 b3 r3 Hi2 x Hx. destruct (Nat.eq_dec c2 c) as [->|E].
            + apply upd_in_same in Hi2 as [-> E]. unfold ls in E. inversion E; subst a3 b3 r3. clear E.
              pose proof (wf_cnt _ _ _ (pi_wf _ _ _ _ H) c h a b r Hin x Hx) as Cx.
              assert (E1 : one (x =? a)%N + one (x =? b)%N = one (x =? other)%N + one (x =? w0)%N).
              { destruct Hab as [[-> ->]|[-> ->]]; lia. }
              rewrite E1 in Cx. unfold Wk in *. destruct (N.eqb_spec x w0) as [->|Nx].
              * rewrite wcnt_app, wcnt_cons in Cx. fold c in Cx. rewrite Nat.eqb_refl in Cx. rewrite wcnt_app.
                destruct (N.eqb_spec w0 sl); [congruence|]. cbn [one] in *. lia.
              * rewrite Wbl'. destruct (N.eqb_spec x sl) as [->|Nsl]; cbn [one] in *; [|lia].
                rewrite wcnt_app. unfold wcnt at 2. simpl. destruct (Nat.eq_dec c c); [|congruence]. lia.
            + apply (upd_in_other c) in Hi2; auto. pose proof (wf_cnt _ _ _ (pi_wf _ _ _ _ H) _ _ _ _ _ Hi2 x Hx) as Cx.
              rewrite <- Cx. unfold Wk. destruct (N.eqb_spec x w0).
              * rewrite !wcnt_app, wcnt_cons. fold c. destruct (Nat.eqb_spec c c2); [congruence|]. reflexivity.
              * rewrite Wbl'. destruct (N.eqb_spec x sl); [subst x|auto]. rewrite wcnt_app. unfold wcnt at 2. simpl.
                destruct (Nat.eq_dec c c2); [congruence|]. lia. }
        { intros v Hv Hvn. destruct Hv as [->| ->].
          - exfalso. apply Hsl. eapply in_slits_firstn; eauto.
          - apply PLold; auto. destruct Hab as [[_ ->]|[-> _]]; auto. }
      * cbn [lw p_trail]. fold ss. rewrite <- (app_nil_r ss). eapply Kok_mono; eauto.
  - rewrite (VR_false _ _ _ _ HV Hov). cbn [bind]. fold ss.
    destruct (inb_spec (neg other) (slits ss)) as [If|If].
    + (* conflict *)
      exists (lw p a1 (p_watches p)), (les_upd c h' (a :: b :: r) es), (Some (CLong c)), (MSKeepStop w).
      split; [reflexivity|]. split; [eapply ESR_upd; eauto|]. split; [apply pext_lw|]. split; [auto|]. split.
      * split; [|auto]. cbn [lw p_watches]. fold bl.
        eapply PIw_upd; eauto; try apply H; [cbn [length] in *; lia|].
        constructor.
        -- intros x v Hx Hv. destruct (wf_ref _ _ _ (pi_wf _ _ _ _ H) x v Hx Hv) as (A & h2 & l2 & B & D). split; auto.
           destruct (Nat.eq_dec (w_clause v) c) as [E|E].
           ++ rewrite E in B. destruct (Hfun _ _ B) as [-> ->]. exists h', (a :: b :: r). rewrite E. auto.
           ++ exists h2, l2. split; auto. apply upd_in_other; auto.
        -- intros c2 h2 a2 b2 r2 Hi2 x Hx. destruct (Nat.eq_dec c2 c) as [->|E].
           ++ apply upd_in_same in Hi2 as [-> E]. inversion E; subst a2 b2 r2; clear E. eapply (wf_cnt _ _ _ (pi_wf _ _ _ _ H)); eauto.
           ++ apply (upd_in_other c) in Hi2; auto. eapply (wf_cnt _ _ _ (pi_wf _ _ _ _ H)); eauto.
      * exists (CLong c). split; auto. exists (a :: b :: r). cbn [conflict_lits lw p_long p_trail p_binary].
        split; [eapply LR_lits; eauto|]. split; [exists h'; split; [auto|discriminate]|]. fold ss. split.
        -- intros x Hx. apply (Permutation_in _ HPo) in Hx. destruct Hx as [<-|[<-|Hx]]; auto.
        -- exists w0. split; auto. eapply Permutation_in; [apply Permutation_sym; exact HPo|right; left; auto].
    + (* propagate *)
      cbn [upd]. set (ls := other :: w0 :: r).
      destruct (LR_set_lits _ _ HL1 c h' (a :: b :: r) ls Hin1) as (a2 & Ea2 & HL2).
      { reflexivity. }
      { apply Forall_forall. intros x Hx. eapply clear_lit; [apply (pi_n _ _ _ _ H)|]. apply LL3.
        eapply Permutation_in; [apply Permutation_sym; exact HPo|auto]. }
      rewrite Ea2. cbn [bind]. rewrite les_upd_upd in HL2.
      set (s := mkStep other (decision_level (p_trail p)) (RLong c)).
      destruct (assign_raw_ok n dbg (p_values p) (p_trail p) s TRn HV Hov) as (v' & Ev & HV').
      { split; auto. }
      rewrite Ev. cbn [bind].
      assert (H1 : PIw (Wk w0 (kept ++ w :: todo) bl) n (les_upd c h' ls es) (lw p a2 (p_watches p))).
      { eapply PIw_upd; eauto; try apply H.
        - cbn [length] in *; lia.
        - constructor.
          + intros x v Hx Hv. destruct (wf_ref _ _ _ (pi_wf _ _ _ _ H) x v Hx Hv) as (A & h2 & l2 & B & D). split; auto.
            destruct (Nat.eq_dec (w_clause v) c) as [E|E].
            * rewrite E in B. destruct (Hfun _ _ B) as [-> ->]. exists h', ls. rewrite E. split; [eapply upd_in_same'; eauto|].
              intros _. eapply Permutation_in; [exact HPo|]. apply D. discriminate.
            * exists h2, l2. split; auto. apply upd_in_other; auto.
          + intros c2 h2 a3 b3 r3 Hi2 x Hx. destruct (Nat.eq_dec c2 c) as [->|E].
            * apply upd_in_same in Hi2 as [-> E]. unfold ls in E. inversion E; subst a3 b3 r3. clear E.
              rewrite (wf_cnt _ _ _ (pi_wf _ _ _ _ H) c h a b r Hin x Hx).
              destruct Hab as [[-> ->]|[-> ->]]; lia.
            * apply (upd_in_other c) in Hi2; auto. eapply (wf_cnt _ _ _ (pi_wf _ _ _ _ H)); eauto.
        - intros v Hv. apply PLold. destruct Hab as [[-> ->]|[-> ->]]; tauto. }
      assert (H2 : PIw (Wk w0 (kept ++ w :: todo) bl) n (les_upd c h' ls es) (p_push (lw p a2 (p_watches p)) v' s)).
      { apply PIw_push; auto. unfold why. cbn [s s_reason s_lit]. exists h', (w0 :: r). split; [eapply upd_in_same'; eauto|].
        cbn [lw p_trail]. fold ss. intros x [<-|Hx]; auto. }
      assert (X : pext p (p_push (lw p a2 (p_watches p)) v' s)).
      { apply (pext_trans _ (lw p a2 (p_watches p))); [|apply pext_push; discriminate].
        split; [exists []; rewrite app_nil_r; auto|auto]. }
      exists (p_push (lw p a2 (p_watches p)) v' s), (les_upd c h' ls es), None, (MSKeep w).
      split; [reflexivity|]. split; [eapply ESR_upd; eauto|]. split; auto. split; auto. split; auto. split.
      * split; auto. split; auto. split; auto. split; [eapply pext_in; eauto|].
        rewrite (pext_slev p), (pext_dl p); auto.
      * intros z h2 l2 Hz Hi2 Hl2. apply in_app_or in Hz as [Hz|[<-|[]]].
        -- eapply Kok_mono; [exact HK|eapply ESR_upd; eauto|auto|exact Hz|exact Hi2|auto].
        -- fold c in Hi2. apply upd_in_same in Hi2 as [-> ->].
           eapply below_now with (l := other); [apply (pi_tr _ _ _ _ H2)| |left; auto|].
           ++ rewrite (pext_slev p), (pext_dl p); auto.
           ++ cbn [p_push p_set_vt p_trail t_push t_steps]. rewrite map_app. apply in_or_app. right. left. reflexivity.
Qed.

Lemma scan_ok n w0 dbg todo : forall p es kept,
  scan_state n es p w0 (kept ++ todo) -> Kok es (t_steps (p_trail p)) w0 kept ->
  exists p' es' rs L', scan_list (watch_body dbg w0) todo (p, None) = Ret ((p', rs), L') /\ ESR es es' /\ pext p p' /\
    t_propagated (p_trail p') = t_propagated (p_trail p) /\ scan_state n es' p' w0 (kept ++ L') /\
    match rs with
    | None => Kok es' (t_steps (p_trail p')) w0 (kept ++ L')
    | Some c => conf_ok n es' p' c
    end.
Proof.
  induction todo as [|w todo IH]; intros p es kept HS HK.
  - exists p, es, None, []. split; [reflexivity|]. split; [apply ESR_refl|]. split; [apply pext_refl|].
    split; auto. split; auto. rewrite app_nil_r. auto.
  - destruct (watch_body_ok n es p w0 dbg kept w todo HS HK) as (p1 & es1 & rs & act & E & HE & HX & HQ & Hact).
    cbn [scan_list]. rewrite E. cbn [bind]. destruct act as [y| |y].
    + destruct Hact as (-> & HS1 & HK1).
      replace (kept ++ y :: todo) with ((kept ++ [y]) ++ todo) in HS1 by (rewrite <- app_assoc; reflexivity).
      destruct (IH p1 es1 (kept ++ [y]) HS1 HK1) as (p' & es' & rs' & L' & E' & HE' & HX' & HQ' & HS' & HR).
      rewrite E'. cbn [bind]. exists p', es', rs', (y :: L'). split; [reflexivity|]. split; [eapply ESR_trans; eauto|].
      split; [eapply pext_trans; eauto|]. split; [congruence|].
      replace (kept ++ y :: L') with ((kept ++ [y]) ++ L') by (rewrite <- app_assoc; reflexivity). auto.
    + destruct Hact as (-> & HS1 & HK1).
      destruct (IH p1 es1 kept HS1 HK1) as (p' & es' & rs' & L' & E' & HE' & HX' & HQ' & HS' & HR).
      exists p', es', rs', L'. split; [exact E'|]. split; [eapply ESR_trans; eauto|].
      split; [eapply pext_trans; eauto|]. split; [congruence|]. auto.
    + destruct Hact as (HS1 & c & -> & HC). exists p1, es1, (Some c), (y :: todo). auto 10.
Qed.

Lemma WF_ext n es W W' : (forall x, vidx x < n -> W x = W' x) -> WF n es W -> WF n es W'.
Proof.
  intros HW H. constructor.
  - intros x w Hx. rewrite <- HW by auto. apply (wf_ref _ _ _ H); auto.
  - intros c h a b r Hi x Hx. rewrite <- HW by auto. eapply (wf_cnt _ _ _ H); eauto.
Qed.

(** Everything watched through [neg l] has been dealt with. *)
Definition propagated_lit (n : nat) (es : list lent) (p : prop) (l : N) : Prop :=
  (forall y, In y (bin (p_binary p) (neg l)) -> In y (slits (t_steps (p_trail p)))) /\
  Kok es (t_steps (p_trail p)) (neg l) (wfun (ws_by_lit (p_watches p)) (neg l)).

Lemma propagate_long_ok n es p dbg l : PI n es p -> vidx l < n ->
  In l (slits (t_steps (p_trail p))) -> slev (t_steps (p_trail p)) l = decision_level (p_trail p) ->
  exists p' es' r, propagate_long_clauses dbg p l = Ret (p', r) /\ PI n es' p' /\ ESR es es' /\ pext p p' /\
    t_propagated (p_trail p') = t_propagated (p_trail p) /\
    match r with
    | None => Kok es' (t_steps (p_trail p')) (neg l) (wfun (ws_by_lit (p_watches p')) (neg l))
    | Some c => conf_ok n es' p' c
    end.
Proof.
  intros H Hv Hl Hd. unfold propagate_long_clauses. rewrite lnot_neg. set (w0 := neg l) in *.
  assert (H0 : vidx w0 < n) by (unfold w0; rewrite vidx_neg; auto).
  assert (Hw : neg w0 = l) by apply neg_neg. clearbody w0.
  unfold watches_take. rewrite (pi_en _ _ _ _ H). unfold dassert at 1. cbn [negb]. rewrite andb_false_r.
  rewrite (vget_nth []) by (rewrite (pi_wl _ _ _ _ H); apply cidx_lt; auto). cbn [bind].
  rewrite vset_lt by (rewrite (pi_wl _ _ _ _ H); apply cidx_lt; auto). cbn [bind].
  set (bl := ws_by_lit (p_watches p)). set (bl0 := upd bl (cidx w0) []). fold (wfun bl w0).
  set (p1 := p_set_watches p (mkWatches bl0 true)).
  assert (Wbl0 : forall x, wfun bl0 x = if (x =? w0)%N then [] else wfun bl x).
  { intro x. apply (wfun_upd _ _ _ _ n); auto. apply (pi_wl _ _ _ _ H). }
  assert (HS : scan_state n es p1 w0 ([] ++ wfun bl w0)).
  { split; [|split; [auto|split; [|split]]].
    - assert (HW : WF n es (Wk w0 (wfun bl w0) bl0)).
      { eapply WF_ext; [|apply (pi_wf _ _ _ _ H)]. intros x _. unfold Wk. rewrite Wbl0. fold bl. destruct (N.eqb_spec x w0) as [->|]; auto. }
      destruct H. constructor; auto. cbn [p1 p_set_watches p_watches ws_by_lit]. unfold bl0. rewrite upd_length. auto.
    - cbn [p1 p_set_watches p_watches ws_by_lit]. rewrite Wbl0, N.eqb_refl. auto.
    - rewrite Hw. auto.
    - rewrite Hw. auto. }
  destruct (scan_ok n w0 dbg (wfun bl w0) p1 es [] HS) as (p2 & es2 & rs & L & E & HE & HX & HQ & HS2 & HR).
  { intros y h0 l0 []. }
  rewrite E. cbn [bind]. destruct HS2 as (P2 & _ & W2 & N2 & D2). cbn [app] in *.
  unfold watches_restore. rewrite (pi_en _ _ _ _ P2). unfold dassert at 1. cbn [negb]. rewrite andb_false_r.
  rewrite (vget_nth []) by (rewrite (pi_wl _ _ _ _ P2); apply cidx_lt; auto). cbn [bind].
  fold (wfun (ws_by_lit (p_watches p2)) w0). rewrite W2. cbn [length Nat.eqb]. unfold dassert. cbn [negb]. rewrite andb_false_r.
  rewrite vset_lt by (rewrite (pi_wl _ _ _ _ P2); apply cidx_lt; auto). cbn [bind].
  set (bl2 := upd (ws_by_lit (p_watches p2)) (cidx w0) L).
  assert (Wbl2 : forall x, wfun bl2 x = Wk w0 L (ws_by_lit (p_watches p2)) x).
  { intro x. unfold bl2. rewrite (wfun_upd _ _ _ _ n); auto. apply (pi_wl _ _ _ _ P2). }
  exists (p_set_watches p2 (mkWatches bl2 true)), es2, rs. split; [reflexivity|]. split.
  { assert (HW : WF n es2 (wfun bl2)).
    { eapply WF_ext; [|apply (pi_wf _ _ _ _ P2)]. intros x _. symmetry. apply Wbl2. }
    destruct P2. constructor; auto. cbn [p_set_watches p_watches ws_by_lit]. unfold bl2. rewrite upd_length. auto. }
  split; auto. split; [exact HX|]. split; [exact HQ|]. destruct rs as [c|]; [exact HR|].
  cbn [p_set_watches p_watches ws_by_lit p_trail]. rewrite Wbl2. unfold Wk. rewrite N.eqb_refl. exact HR.
Qed.

Lemma propagate_literal_ok n es p dbg l : PI n es p -> vidx l < n ->
  In l (slits (t_steps (p_trail p))) -> slev (t_steps (p_trail p)) l = decision_level (p_trail p) ->
  exists p' es' r, propagate_literal dbg p l = Ret (p', r) /\ PI n es' p' /\ ESR es es' /\ pext p p' /\
    t_propagated (p_trail p') = t_propagated (p_trail p) /\
    match r with
    | None => propagated_lit n es' p' l
    | Some c => conf_ok n es' p' c
    end.
Proof.
  intros H Hv Hl Hd. unfold propagate_literal, propagate_binary_clauses. rewrite lnot_neg.
  unfold bin_containing. rewrite (vget_nth []).
  2:{ rewrite (bi_len _ _ (pi_bi _ _ _ _ H)). apply cidx_lt. rewrite vidx_neg; auto. }
  cbn [bind]. fold (bin (p_binary p) (neg l)).
  destruct (binary_loop_ok (wfun (ws_by_lit (p_watches p))) n es dbg (neg l) (bin (p_binary p) (neg l)) p H) as (p1 & r1 & E1 & H1 & X1 & Q1 & L1 & W1 & R1).
  { rewrite vidx_neg; auto. }
  { auto. }
  { rewrite neg_neg; auto. }
  { rewrite neg_neg; auto. }
  rewrite E1. cbn [bind]. assert (H1' : PI n es p1) by (unfold PI; rewrite W1; exact H1).
  destruct r1 as [c|].
  - exists p1, es, (Some c). split; [reflexivity|]. split; auto. split; [apply ESR_refl|]. auto.
  - destruct (propagate_long_ok n es p1 dbg l H1' Hv) as (p2 & es2 & r2 & E2 & H2 & HE2 & X2 & Q2 & R2).
    { eapply pext_in; eauto. }
    { rewrite (pext_slev p), (pext_dl p); auto. }
    exists p2, es2, r2. split; auto. split; auto. split; auto. split; [eapply pext_trans; eauto|]. split; [congruence|].
    destruct r2 as [c|]; auto. split; auto. intros y Hy. eapply pext_in; eauto. apply R1.
    destruct X1 as (_ & _ & _ & B1). destruct X2 as (_ & _ & _ & B2). rewrite B2, B1 in Hy. auto.
Qed.

Lemma in_firstn_S {A} (l : list A) q x a : In x (firstn (q + 1) l) -> nth_error l q = Some a -> In x (firstn q l) \/ x = a.
Proof.
  revert l; induction q; intros [|y l] H E; simpl in *; try contradiction; try discriminate.
  - inv E. destruct H as [H|H]; auto. 
  - destruct H as [H|H]; auto. destruct (IHq _ H E); auto.
Qed.

Lemma slits_firstn_S ss q s l : In l (slits (firstn (q + 1) ss)) -> nth_error ss q = Some s ->
  In l (slits (firstn q ss)) \/ l = s_lit s.
Proof.
  intros H E. rewrite <- firstn_map in *. eapply in_firstn_S in H; eauto. rewrite nth_error_map, E. reflexivity.
Qed.

Lemma PI_advance n es p s : PI n es p -> nth_error (t_steps (p_trail p)) (t_propagated (p_trail p)) = Some s ->
  propagated_lit n es p (s_lit s) -> vidx (s_lit s) < n ->
  PI n es (p_set_trail p (mkTrail (t_index (p_trail p)) (t_steps (p_trail p)) (t_propagated (p_trail p) + 1) (t_decisions (p_trail p)))).
Proof.
  intros H E (HB & HK) Hv. set (ss := t_steps (p_trail p)) in *. set (q := t_propagated (p_trail p)) in *.
  assert (Hq : q < length ss) by (apply nth_error_Some; congruence).
  assert (Hsl : In (s_lit s) (slits ss)) by (apply in_slits; eauto).
  assert (Hlev : slev ss (s_lit s) = decision_level (p_trail p)).
  { unfold ss. rewrite (tr_slev n _ (pi_tr _ _ _ _ H) _ _ E). eapply tr_lev_last; eauto. apply (pi_tr _ _ _ _ H). }
  constructor; cbn [p_set_trail p_trail p_values p_long p_binary p_watches t_steps t_propagated]; try apply H.
  - pose proof (pi_tr _ _ _ _ H) as HT. constructor; cbn [t_index t_steps t_decisions t_propagated]; try apply HT.
    + intros d Hd. destruct (tr_ds _ _ HT d Hd) as [D1 D2]. split; auto. fold q in D2. lia.
    + fold ss. lia.
  - fold ss. intros c h a b r Hi w Hw Hn. destruct (slits_firstn_S _ _ _ _ Hn E) as [Hn'|Hn'].
    + eapply (pi_pl _ _ _ _ H); eauto.
    + assert (Ew : w = neg (s_lit s)) by (rewrite <- Hn', neg_neg; auto).
      assert (Hwv : vidx w < n) by (rewrite Ew, vidx_neg; auto).
      pose proof (wf_cnt _ _ _ (pi_wf _ _ _ _ H) _ _ _ _ _ Hi w Hwv) as C.
      assert (C1 : 0 < wcnt c (wfun (ws_by_lit (p_watches p)) w)).
      { rewrite C. destruct Hw as [-> | ->]; rewrite N.eqb_refl; simpl; lia. }
      apply wcnt_pos in C1 as (v & Hv1 & <-). rewrite Ew in Hv1 |- *.
      eapply HK; eauto. discriminate.
  - fold ss. intros x y Hx Hi Hn. destruct (slits_firstn_S _ _ _ _ Hn E) as [Hn'|Hn'].
    + eapply (pi_pb _ _ _ _ H); eauto.
    + rewrite Hn'. assert (Ex : x = neg (s_lit s)) by (rewrite <- Hn', neg_neg; auto). subst x.
      split; [apply HB; auto|]. rewrite Hlev. apply (tr_slev_le n). apply (pi_tr _ _ _ _ H).
Qed.

(** The trail holds at most one propagated step per variable. *)
Lemma ext_bound n t vals ss0 ext : TR n t -> VR n vals (slits (t_steps t)) -> t_steps t = ss0 ++ ext ->
  Forall (fun s => s_reason s <> RUnit /\ s_reason s <> RDecision) ext -> length ext <= n.
Proof.
  intros H HV E F. rewrite Forall_forall in F.
  rewrite <- (map_length (fun s => vidx (s_lit s)) ext). rewrite <- (seq_length n 0).
  apply NoDup_incl_length.
  - apply NoDup_nth_error. intros i j Hi Ei. rewrite map_length in Hi. rewrite !nth_error_map in Ei.
    destruct (nth_error ext i) as [si|] eqn:Ai; [|apply nth_error_None in Ai; lia].
    destruct (nth_error ext j) as [sj|] eqn:Aj; [|discriminate]. simpl in Ei. inv Ei.
    assert (Bi : nth_error (t_steps t) (length ss0 + i) = Some si).
    { rewrite E, nth_error_app2 by lia. replace (length ss0 + i - length ss0) with i by lia. auto. }
    assert (Bj : nth_error (t_steps t) (length ss0 + j) = Some sj).
    { rewrite E, nth_error_app2 by lia. replace (length ss0 + j - length ss0) with j by lia. auto. }
    pose proof (tr_canon n t H _ _ Bi (or_introl (proj1 (F _ (nth_error_In _ _ Ai))))) as Ci.
    pose proof (tr_canon n t H _ _ Bj (or_introl (proj1 (F _ (nth_error_In _ _ Aj))))) as Cj.
    destruct (vidx_cases _ _ H1) as [Es|Es].
    + rewrite Es in Ci. rewrite Ci in Cj. inv Cj. lia.
    + exfalso. apply (VR_cons _ _ _ (s_lit sj) HV); [apply in_slits; eauto|]. rewrite <- Es. apply in_slits; eauto.
  - intros v Hv. apply in_map_iff in Hv as (s & <- & Hs). apply in_seq. split; [lia|].
    simpl. apply (VR_range _ _ _ _ HV). rewrite E, map_app. apply in_or_app. right. apply in_map; auto.
Qed.

Lemma propagate_loop_ok n dbg p0 fuel : forall p es, PI n es p -> pext p0 p ->
  length (t_steps (p_trail p0)) + n < fuel + t_propagated (p_trail p) ->
  exists p' es' r, propagate_loop fuel dbg p = Ret (p', r) /\ PI n es' p' /\ ESR es es' /\ pext p p' /\
    t_propagated (p_trail p) <= t_propagated (p_trail p') /\
    match r with
    | None => t_propagated (p_trail p') = length (t_steps (p_trail p'))
    | Some c => conf_ok n es' p' c
    end.
Proof.
  induction fuel as [|f IH]; intros p es H X Hf.
  - exfalso. pose proof (tr_q _ _ (pi_tr _ _ _ _ H)). destruct X as ((ext & E & F) & _).
    pose proof (ext_bound n _ _ _ _ (pi_tr _ _ _ _ H) (pi_vr _ _ _ _ H) E F) as B. rewrite E, app_length in *. lia.
  - cbn [propagate_loop]. unfold next_unpropagated_lit.
    destruct (nth_error (t_steps (p_trail p)) (t_propagated (p_trail p))) as [s|] eqn:Es; cbn [option_map].
    + assert (Hsl : In (s_lit s) (slits (t_steps (p_trail p)))) by (apply in_slits; eauto).
      assert (Hv : vidx (s_lit s) < n) by (apply (VR_range _ _ _ _ (pi_vr _ _ _ _ H)); auto).
      destruct (propagate_literal_ok n es p dbg (s_lit s) H Hv Hsl) as (p1 & es1 & r1 & E1 & H1 & HE1 & X1 & Q1 & R1).
      { rewrite (tr_slev n _ (pi_tr _ _ _ _ H) _ _ Es). eapply tr_lev_last; eauto. apply (pi_tr _ _ _ _ H). }
      rewrite E1. cbn [bind]. destruct r1 as [c|].
      * exists p1, es1, (Some c). split; [reflexivity|]. split; auto. split; auto. split; auto. split; [lia|auto].
      * assert (Es1 : nth_error (t_steps (p_trail p1)) (t_propagated (p_trail p1)) = Some s).
        { rewrite Q1. destruct X1 as ((ext & Ex & _) & _). rewrite Ex. rewrite nth_error_app1; auto. apply nth_error_Some. congruence. }
        unfold advance_propagated. rewrite (proj2 (Nat.ltb_lt _ _)) by (apply nth_error_Some; congruence).
        unfold dassert. cbn [negb]. rewrite andb_false_r. cbn [bind].
        set (p2 := p_set_trail p1 _). assert (H2 : PI n es1 p2) by (apply (PI_advance n es1 p1 s); auto).
        assert (X2 : pext p p2) by exact X1.
        destruct (IH p2 es1 H2) as (p' & es' & r & E' & H' & HE' & X' & Q' & R').
        { eapply pext_trans; eauto. }
        { cbn [p2 p_set_trail p_trail t_propagated]. lia. }
        exists p', es', r. split; auto. split; auto. split; [eapply ESR_trans; eauto|]. split; [eapply pext_trans; eauto|].
        cbn [p2 p_set_trail p_trail t_propagated] in Q'. split; [lia|auto].
    + exists p, es, None. split; [reflexivity|]. split; auto. split; [apply ESR_refl|]. split; [apply pext_refl|]. split; auto.
      apply nth_error_None in Es. pose proof (tr_q _ _ (pi_tr _ _ _ _ H)). lia.
Qed.

(** The statistics after a successful propagation. *)
Definition prop_stats (cx : ctx) (p p' : prop) : ctx :=
  let s := cx_stats cx in
  cx_with cx (mkStats (st_propagations s + (t_propagated (p_trail p') - t_propagated (p_trail p)))
    (if Nat.eqb (decision_level (p_trail p')) 0 then fixed_var_count (p_trail p') else st_fixed_vars s)
    (st_binary s) (st_irredundant s) (st_redundant s) (st_vars s)
    (st_decisions s) (st_conflicts s) (st_restarts s) (st_reductions s)).

Lemma propagate_ok n es dbg cx p : PI n es p ->
  exists cx' p' es' r, propagate dbg cx p = Ret (cx', p', r) /\ PI n es' p' /\ ESR es es' /\ pext p p' /\
    t_propagated (p_trail p) <= t_propagated (p_trail p') /\
    match r with
    | None => t_propagated (p_trail p') = length (t_steps (p_trail p')) /\ cx' = prop_stats cx p p'
    | Some c => conf_ok n es' p' c /\ cx' = cx
    end.
Proof.
  intro H. unfold propagate, enable_watch_lists. rewrite (pi_en _ _ _ _ H). cbn [Bool.eqb bind].
  destruct (propagate_loop_ok n dbg p (propagate_fuel p) p es H (pext_refl p)) as (p' & es' & r & E & H' & HE & X & Q & R).
  { unfold propagate_fuel. rewrite (VR_length _ _ _ (pi_vr _ _ _ _ H)). lia. }
  rewrite E. cbn [bind]. destruct r as [c|].
  - exists cx, p', es', (Some c). auto 10.
  - exists (prop_stats cx p p'), p', es', None. auto 10.
Qed.
