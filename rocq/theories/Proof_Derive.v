(** What the derivation of the first-UIP clause touches: the variables it bumps
    and the clauses whose headers it updates. *)
From Coq Require Import NArith List Bool Arith Lia Permutation Sorted ZifyN ZifyNat ZifyBool.
From Verif Require Import Model_Base Model_Lit Model_PartialAssignment Model_Header Model_Arena Model_Prop
  Model_Heap Model_Vsids Model_Analysis Spec Drivers_Arena Proof_Base Proof_PA Proof_Lit Proof_Header Proof_Arena
  Proof_ArenaHist Proof_Long Proof_Trail Proof_Heap Proof_Backtrack Proof_Inv Proof_Propagate Proof_PropOps Proof_Glue Proof_Analysis.
Import ListNotations.

(** The literals met when the steps of the conflict level from position [k] on
    are resolved. *)
Inductive met (es : list lent) (ss : list step) (d : nat) (cl : list N) (k : nat) : N -> Prop :=
| met_conflict x : In x cl -> 1 <= slev ss (neg x) -> met es ss d cl k x
| met_reason i s rl x : nth_error ss i = Some s -> k <= i -> s_level s = d -> met es ss d cl k (neg (s_lit s)) ->
    rsn es s rl -> In x rl -> 1 <= slev ss (neg x) -> met es ss d cl k x.

Lemma met_mono es ss d cl k k' x : k' <= k -> met es ss d cl k x -> met es ss d cl k' x.
Proof. intros L H. induction H; [constructor; auto|]. eapply met_reason; eauto. lia. Qed.
Lemma met_level es ss d cl k x : met es ss d cl k x -> 1 <= slev ss (neg x).
Proof. destruct 1; auto. Qed.

(** The long clauses among the conflict clause and the resolved reasons. *)
Definition used_ref (es : list lent) (ss : list step) (d : nat) (cl : list N) (cf : conflict) (k : nat) (c : cref) : Prop :=
  cf = CLong c \/ exists i s, nth_error ss i = Some s /\ k <= i /\ s_level s = d /\ met es ss d cl k (neg (s_lit s)) /\ s_reason s = RLong c.

Definition bump_in (ss : list step) (B : list cref) (e : lent) : lent :=
  if existsb (Nat.eqb (le_ref e)) B then (le_ref e, bumped ss (le_hdr e) (le_lits e), le_lits e) else e.
Definition bump_all (ss : list step) (B : list cref) (es : list lent) : list lent := map (bump_in ss B) es.

Lemma bump_all_nil ss es : bump_all ss [] es = es.
Proof. unfold bump_all. rewrite <- (map_id es) at 2. apply map_ext. intro e. reflexivity. Qed.
Lemma existsb_ref c B : existsb (Nat.eqb c) B = true <-> In c B.
Proof. rewrite existsb_exists. split; [intros (x & H & E); apply Nat.eqb_eq in E; congruence|]. intro H. exists c. split; auto. apply Nat.eqb_refl. Qed.
Lemma bump_all_snoc ss B c h l es : NoDup (map le_ref es) -> In (c, h, l) es -> ~ In c B ->
  In (c, h, l) (bump_all ss B es) /\ les_upd c (bumped ss h l) l (bump_all ss B es) = bump_all ss (B ++ [c]) es.
Proof.
  intros ND Hi Hn. split.
  - apply in_map_iff. exists (c, h, l). split; auto. unfold bump_in. cbn [le_ref fst]. destruct (existsb _ B) eqn:E; auto.
    apply existsb_ref in E. contradiction.
  - unfold les_upd, bump_all. rewrite map_map. apply map_ext_in. intros e He. unfold bump_in.
    rewrite existsb_app. cbn [existsb]. rewrite orb_false_r.
    assert (R : le_ref (if existsb (Nat.eqb (le_ref e)) B then (le_ref e, bumped ss (le_hdr e) (le_lits e), le_lits e) else e) = le_ref e)
      by (destruct (existsb _ B); reflexivity).
    rewrite R. destruct (Nat.eqb_spec (le_ref e) c) as [E|E]; [|rewrite orb_false_r; auto]. rewrite orb_true_r.
    assert (e = (c, h, l)) as ->; [|reflexivity].
    clear R. revert ND Hi He. induction es as [|e0 r IH]; [contradiction|]. cbn [map]. intros ND Hi He. inversion ND as [|e1 r1 N1 N2]. subst e1 r1.
    destruct Hi as [Hi|Hi], He as [He|He]; auto; [congruence| |].
    + exfalso. apply N1. rewrite Hi. cbn [le_ref fst]. rewrite <- E. apply in_map. auto.
    + exfalso. apply N1. rewrite He, E. change c with (le_ref (c, h, l)). apply in_map. auto.
Qed.

Lemma cnt_ex ss d k cur : 1 <= cnt ss d k cur -> exists i, i < k /\ flag cur i = true /\ levi ss i = d.
Proof.
  induction k; [cbn; lia|]. rewrite cnt_S. intro H. destruct (flag cur k) eqn:F; [destruct (Nat.eqb_spec (levi ss k) d)|].
  - exists k. auto.
  - cbn in H. destruct IHk as (i & A & B & C); [lia|]. exists i. split; auto.
  - cbn in H. destruct IHk as (i & A & B & C); [lia|]. exists i. split; auto.
Qed.

Section Derive.
Variables (n : nat) (es0 : list lent) (p0 : prop).
Hypothesis HP0 : PI n es0 p0.
Notation t := (p_trail p0).
Notation ss := (t_steps t).
Notation d := (decision_level t).
Hypothesis Hd : 1 <= d.
Variable m0 : minim.
Variable v0 : vsids.
Notation UI := (UI p0 m0).

Definition bumps (V : list N) (v : vsids) : Prop := foldM bump_var V v0 = Ret v.

Record GA (k : nat) (V : list N) (an : analysis) (cb : callbacks) : Prop := {
  ga_nd : NoDup V;
  ga_in : forall x, In x V -> In (neg x) (slits ss) /\ 1 <= slev ss (neg x);
  ga_fl : forall i, flag (an_current an) i = true <-> exists x, In x V /\ lpos ss (neg x) = Some i /\ (i < k \/ slev ss (neg x) < d);
  ga_der : an_derived an = filter (fun x => slev ss (neg x) <? d) V;
  ga_cb : bumps V (cb_vsids cb) }.

Lemma bumps_snoc V v l v' : bumps V v -> bump_var v l = Ret v' -> bumps (V ++ [l]) v'.
Proof. unfold bumps. intros A B. rewrite foldM_app, A. cbn. rewrite B. reflexivity. Qed.

Lemma lpos_neg_eq x y i : lpos ss (neg x) = Some i -> lpos ss (neg y) = Some i -> x = y.
Proof.
  intros A B. destruct (lpos_some _ _ _ A) as (s & E & F). destruct (lpos_some _ _ _ B) as (s' & E' & F').
  rewrite E in E'. inversion E'; subst. rewrite <- (neg_neg x), <- (neg_neg y). congruence.
Qed.

Lemma add_literal_g k V an cb l an' cb' : UI k an -> GA k V an cb -> before ss k (neg l) ->
  add_literal t (an, cb) l = Ret (an', cb') ->
  exists V', GA k V' an' cb' /\ forall x, In x V' <-> In x V \/ (x = l /\ 1 <= slev ss (neg l)).
Proof.
  intros HU HG (i & Ei & Li) H. pose proof (pi_tr _ _ _ _ HP0) as HT. pose proof (lpos_In _ _ _ Ei) as Hin.
  destruct (tr_index_neg n t HT l Hin) as (i' & s & A & B & C & D & E). rewrite Ei in B. inversion B; subst i'. clear B.
  assert (Hlen : i < length (an_current an)).
  { pose proof (ui_len _ _ _ _ HU). assert (i < length ss) by (apply nth_error_Some; congruence). lia. }
  unfold add_literal in H. rewrite A in H. cbn [bind] in H. rewrite (proj2 (vget_ok _ _ _) C) in H. cbn [bind] in H.
  destruct (Nat.eqb_spec (s_level s) 0) as [Z|Z].
  { inversion H; subst. exists V. split; auto. intro x. split; auto. intros [G|[_ G]]; auto. lia. }
  rewrite (vget_nth false) in H by auto. cbn [bind] in H. rewrite vset_lt in H by auto. cbn [bind] in H. fold (flag (an_current an) i) in H.
  assert (Hfl : forall j, flag (upd (an_current an) i true) j = true <-> j = i \/ flag (an_current an) j = true).
  { intro j. rewrite flag_upd. destruct (Nat.ltb_spec i (length (an_current an))); [|lia]. rewrite andb_true_r.
    destruct (Nat.eqb_spec i j); intuition congruence. }
  destruct (flag (an_current an) i) eqn:F.
  { inversion H; subst. assert (In l V).
    { apply (ga_fl _ _ _ _ HG) in F as (x & F1 & F2 & _). rewrite (lpos_neg_eq _ _ _ Ei F2). auto. }
    exists V. split.
    - constructor; cbn [an_set_current an_current an_derived]; try apply HG. intro j. rewrite Hfl. split.
      + intros [->|G]; apply (ga_fl _ _ _ _ HG); auto.
      + intro G. right. apply (ga_fl _ _ _ _ HG). auto.
    - intro x. split; auto. intros [G|[-> _]]; auto. }
  assert (Hn : ~ In l V). { intro Q. assert (flag (an_current an) i = true); [|congruence]. apply (ga_fl _ _ _ _ HG). exists l. auto. }
  unfold cb_var_in_conflict in H. destruct (bump_var (cb_vsids cb) l) as [v1| |] eqn:Eb; cbn [bind] in H; [|discriminate H..].
  exists (V ++ [l]). split.
  2:{ intro x. rewrite in_app_iff. cbn [In]. split; [intros [G|[<-|[]]]; auto; right; split; auto; lia|]. intros [G|[-> _]]; auto. }
  assert (GF : forall j, flag (upd (an_current an) i true) j = true <-> exists x, In x (V ++ [l]) /\ lpos ss (neg x) = Some j /\ (j < k \/ slev ss (neg x) < d)).
  { intro j. rewrite Hfl, (ga_fl _ _ _ _ HG j). split.
    - intros [->|(x & G1 & G2)]; [exists l|exists x]; rewrite in_app_iff; cbn [In]; auto.
    - intros (x & G1 & G2 & G3). apply in_app_or in G1 as [G1|[<-|[]]]; [right; eauto|left; congruence]. }
  assert (GI : forall x, In x (V ++ [l]) -> In (neg x) (slits ss) /\ 1 <= slev ss (neg x)).
  { intros x Hx. apply in_app_or in Hx as [Hx|[<-|[]]]; [apply HG; auto|]. split; auto. lia. }
  assert (GN : NoDup (V ++ [l])) by (apply NoDup_app_snoc; auto; apply HG).
  assert (GB : bumps (V ++ [l]) v1) by (eapply bumps_snoc; eauto; apply HG).
  pose proof (tr_lev_le n t HT _ _ C) as Hle.
  assert (GD : filter (fun x => slev ss (neg x) <? d) (V ++ [l]) = an_derived an ++ (if Nat.eqb (s_level s) d then [] else [l])).
  { rewrite filter_app, <- (ga_der _ _ _ _ HG). f_equal. cbn [filter]. destruct (Nat.ltb_spec (slev ss (neg l)) d), (Nat.eqb_spec (s_level s) d); auto; lia. }
  destruct (Nat.eqb_spec (s_level s) d) as [G|G]; inversion H; subst; constructor; cbn [an_set_count an_set_derived an_set_current an_current an_derived cb_vsids]; auto.
  rewrite GD, app_nil_r. auto.
Qed.

Lemma add_literals_g k ls : (forall x, In x ls -> before ss k (neg x)) -> forall V an cb an' cb', UI k an -> CB n cb -> GA k V an cb ->
  foldM (add_literal t) ls (an, cb) = Ret (an', cb') ->
  exists V', GA k V' an' cb' /\ forall x, In x V' <-> In x V \/ (In x ls /\ 1 <= slev ss (neg x)).
Proof.
  induction ls as [|l r IH]; intros Hb V an cb an' cb' HU HC HG H.
  - inversion H; subst. exists V. split; auto. intro x. cbn [In]. tauto.
  - cbn [foldM] in H. destruct (add_literal_ok n es0 p0 HP0 Hd m0 k an cb l HU HC (Hb l (or_introl eq_refl))) as (an1 & cb1 & E1 & U1 & C1 & _).
    rewrite E1 in H. cbn [bind] in H. destruct (add_literal_g _ _ _ _ _ _ _ HU HG (Hb l (or_introl eq_refl)) E1) as (V1 & G1 & I1).
    destruct (IH (fun x Hx => Hb x (or_intror Hx)) V1 an1 cb1 an' cb' U1 (proj1 C1) G1 H) as (V2 & G2 & I2).
    exists V2. split; auto. intro x. rewrite I2, I1. cbn [In]. intuition (subst; auto).
Qed.

Variables (cl : list N) (cf : conflict).
Hypothesis Hcf : match cf with CLong c => exists h, In (c, h, cl) es0 /\ cl <> [] | CBinary _ _ => True end.
Hypothesis Hcl : forall x, In x cl -> In (neg x) (slits ss).
Notation mt := (met es0 ss d cl).
Notation ur := (used_ref es0 ss d cl cf).

Lemma rsn_fun s rl rl' : rsn es0 s rl -> rsn es0 s rl' -> rl = rl'.
Proof.
  unfold rsn. destruct (s_reason s); try congruence; [contradiction|]. intros (h & A) (h' & B).
  destruct (LR_fun _ _ (pi_lr _ _ _ _ HP0) _ _ _ _ _ A B) as [_ E]. congruence.
Qed.
Lemma rsn_before k s rl : nth_error ss k = Some s -> rsn es0 s rl -> forall x, In x rl -> before ss k (neg x).
Proof.
  intros E R. assert (Hr : s_reason s <> RDecision) by (intro Q; unfold rsn in R; rewrite Q in R; contradiction).
  destruct (reason_lits_ok n es0 p0 k s HP0 E Hr) as (rl' & _ & R' & B). rewrite (rsn_fun s rl rl'); auto.
Qed.

Lemma canon_d k s : nth_error ss k = Some s -> s_level s = d -> lpos ss (s_lit s) = Some k /\ slev ss (s_lit s) = d.
Proof.
  intros E L. pose proof (pi_tr _ _ _ _ HP0) as HT. split; [apply (tr_canon n t HT k s E); right; lia|]. rewrite (tr_slev n t HT _ _ E). auto.
Qed.

Lemma met_skip k : (forall s, nth_error ss k = Some s -> s_level s = d -> ~ mt (S k) (neg (s_lit s))) -> forall x, mt k x <-> mt (S k) x.
Proof.
  intros H x. split; [|apply met_mono; lia]. intro G. induction G as [x A B|i s rl x A B C D IH E F G]; [constructor; auto|].
  destruct (Nat.eq_dec i k) as [->|Ne]; [destruct (H s A C IH)|]. eapply met_reason; eauto. lia.
Qed.
Lemma met_resolve k s rl : nth_error ss k = Some s -> s_level s = d -> mt (S k) (neg (s_lit s)) -> rsn es0 s rl ->
  forall x, mt k x <-> mt (S k) x \/ (In x rl /\ 1 <= slev ss (neg x)).
Proof.
  intros E L M R x. split.
  - intro G. induction G as [x A B|i s' rl' x A B C D IH E' F G]; [left; constructor; auto|].
    destruct (Nat.eq_dec i k) as [->|Ne].
    + right. rewrite E in A. inversion A; subst s'. rewrite (rsn_fun s rl rl'); auto.
    + destruct IH as [IH|[IH _]]; [left; eapply met_reason; eauto; lia|].
      destruct (rsn_before k s rl E R _ IH) as (j & Ej & Lj). rewrite neg_neg in Ej. destruct (canon_d i s' A C) as [Q _].
      rewrite Q in Ej. inversion Ej. lia.
  - intros [G|[G1 G2]]; [eapply met_mono; [|exact G]; lia|]. eapply met_reason; eauto. eapply met_mono; [|exact M]. lia.
Qed.

Lemma used_mono k c : ur (S k) c -> ur k c.
Proof. intros [H|(i & s & A & B & C & D & E)]; [left; auto|right]. exists i, s. split; auto. split; [lia|]. split; auto. split; auto. eapply met_mono; [|exact D]; lia. Qed.
Lemma used_skip k : (forall s, nth_error ss k = Some s -> s_level s = d -> ~ mt (S k) (neg (s_lit s))) -> forall c, ur k c <-> ur (S k) c.
Proof.
  intros H c. split; [|apply used_mono]. intros [G|(i & s & A & B & C & D & E)]; [left; auto|right].
  apply (met_skip k H) in D. destruct (Nat.eq_dec i k) as [->|Ne]; [destruct (H s A C D)|]. exists i, s. split; auto. split; [lia|auto].
Qed.
Lemma used_resolve k s rl : nth_error ss k = Some s -> s_level s = d -> mt (S k) (neg (s_lit s)) -> rsn es0 s rl ->
  forall c, ur k c <-> ur (S k) c \/ s_reason s = RLong c.
Proof.
  intros E L M R c. split.
  - intros [G|(i & s' & A & B & C & D & F)]; [left; left; auto|].
    destruct (Nat.eq_dec i k) as [->|Ne]; [right; congruence|]. left. right. exists i, s'. split; auto. split; [lia|]. split; auto. split; auto.
    apply (met_resolve k s rl E L M R) in D as [D|[D _]]; auto. exfalso.
    destruct (rsn_before k s rl E R _ D) as (j & Ej & Lj). rewrite neg_neg in Ej. destruct (canon_d i s' A C) as [Q _].
    rewrite Q in Ej. inversion Ej. lia.
  - intros [G|G]; [apply used_mono; auto|]. right. exists k, s. split; auto. split; auto. split; auto. split; auto. eapply met_mono; [|exact M]; lia.
Qed.

(** The clause of a step that has not been resolved is new. *)
Lemma used_fresh k s c : nth_error ss k = Some s -> s_level s = d -> s_reason s = RLong c -> ~ ur (S k) c.
Proof.
  intros E L R. pose proof (pi_ri _ _ _ _ HP0) as HR. pose proof (HR k s E) as R1. rewrite R in R1. destruct R1 as (h & r & R1 & R2).
  intros [Q|(i & s' & A & B & C & _ & F)].
  - rewrite Q in Hcf. destruct Hcf as (h' & H1 & H2). destruct (LR_fun _ _ (pi_lr _ _ _ _ HP0) _ _ _ _ _ R1 H1) as [_ Eq].
    eapply VR_cons; [apply (pi_vr _ _ _ _ HP0)|apply in_slits; exists k, s; eauto|]. apply Hcl. rewrite <- Eq. left; auto.
  - pose proof (HR i s' A) as R3. rewrite F in R3. destruct R3 as (h' & r' & R3 & _). destruct (LR_fun _ _ (pi_lr _ _ _ _ HP0) _ _ _ _ _ R1 R3) as [_ Eq].
    inversion Eq as [[Q1 Q2]]. destruct (canon_d k s E L) as [G1 _]. destruct (canon_d i s' A C) as [G2 _]. rewrite Q1, G2 in G1. inversion G1. lia.
Qed.

(** The scan does not stop before the first unique implication point. *)
Definition not_first (k : nat) : Prop := forall i s, k <= i -> nth_error ss i = Some s -> s_level s = d -> mt (S i) (neg (s_lit s)) ->
  exists x, mt (S i) x /\ slev ss (neg x) = d /\ before ss i (neg x).

Record uip_at (k : nat) (u : step) : Prop := {
  ua_u : nth_error ss k = Some u;
  ua_lev : s_level u = d;
  ua_met : mt (S k) (neg (s_lit u));
  ua_only : forall x, mt (S k) x -> slev ss (neg x) = d -> exists j, lpos ss (neg x) = Some j /\ k <= j;
  ua_first : not_first (S k) }.

Lemma uip_loop_g k : k <= length ss -> forall p an cb V B p' an' cb', PS n es0 p0 p (bump_all ss B es0) -> UI k an -> CB n cb -> 1 <= an_count an ->
  GA k V an cb -> (forall x, In x V <-> mt k x) -> (forall c, In c B <-> ur k c) -> not_first k ->
  uip_loop k p an cb = Ret (p', an', cb') ->
  exists k' u V' B', uip_at k' u /\ NoDup V' /\ (forall x, In x V' <-> mt (S k') x) /\ (forall c, In c B' <-> ur (S k') c) /\
    bumps V' (cb_vsids cb') /\ PS n es0 p0 p' (bump_all ss B' es0) /\
    an_derived an' = filter (fun x => slev ss (neg x) <? d) V' ++ [neg (s_lit u)].
Proof.
  pose proof (pi_tr _ _ _ _ HP0) as HT.
  induction k as [|k IH]; intros Hk p an cb V B p' an' cb' HS HU HC Hc HG HV HB HN H.
  { exfalso. rewrite (ui_cnt _ _ _ _ HU) in Hc. unfold cnt in Hc. simpl in Hc. lia. }
  cbn [uip_loop] in H. rewrite (PS_trail _ _ _ _ _ HS) in H. pose proof (ui_len _ _ _ _ HU) as HL.
  rewrite (vget_nth false) in H by lia. cbn [bind] in H. fold (flag (an_current an) k) in H. rewrite vset_lt in H by lia. cbn [bind] in H.
  destruct (nth_error ss k) as [s|] eqn:Es; [|apply nth_error_None in Es; lia].
  assert (Hlk : levi ss k = s_level s) by (unfold levi; rewrite Es; auto).
  assert (Hfl : forall j, flag (upd (an_current an) k false) j = true <-> j <> k /\ flag (an_current an) j = true).
  { intro j. rewrite flag_upd. destruct (Nat.ltb_spec k (length (an_current an))); [|lia]. rewrite andb_true_r.
    destruct (Nat.eqb_spec k j); intuition congruence. }
  pose proof (cnt_upd_ge ss d k (an_current an) k false (le_n k)) as Hcu.
  pose proof (ui_cnt _ _ _ _ HU) as Hcnt. rewrite cnt_S in Hcnt.
  destruct (flag (an_current an) k) eqn:F; cbn [negb] in H.
  2:{ assert (Eq : upd (an_current an) k false = an_current an).
      { apply nth_ext with (d := false) (d' := false); [apply upd_length|]. intros j _.
        change (flag (upd (an_current an) k false) j = flag (an_current an) j).
        rewrite flag_upd. destruct (Nat.eqb_spec k j) as [<-|]; cbn [andb]; auto. destruct (_ <? _); auto. }
      rewrite Eq in H. replace (an_set_current an (an_current an)) with an in H by (destruct an; reflexivity).
      assert (Hno : forall s, nth_error ss k = Some s -> s_level s = d -> ~ mt (S k) (neg (s_lit s))).
      { intros s' E' L' M. apply HV in M. assert (Q : flag (an_current an) k = true); [|congruence].
        apply (ga_fl _ _ _ _ HG). exists (neg (s_lit s')). rewrite neg_neg. split; auto. destruct (canon_d k s' E' L') as [Q1 Q2]. split; auto. }
      eapply (IH ltac:(lia) p an cb V B); try eassumption.
      - constructor; try apply HU.
        + intros i Fi. destruct (ui_cur _ _ _ _ HU i Fi) as [[G1 G2]|G]; auto. left. split; auto.
          destruct (Nat.eq_dec i k); [congruence|lia].
        + rewrite Hcnt. simpl. lia.
      - constructor; try apply HG. intro i. rewrite (ga_fl _ _ _ _ HG). split; intros (x & G1 & G2 & G3); exists x; split; auto; split; auto.
        + destruct G3 as [G3|G3]; auto. destruct (Nat.eq_dec i k) as [->|]; [|left; lia]. assert (Q : flag (an_current an) k = true); [|congruence].
          apply (ga_fl _ _ _ _ HG). exists x. auto.
        + destruct G3; auto.
      - intro x. rewrite HV, (met_skip k Hno). tauto.
      - intro c. rewrite HB, (used_skip k Hno). tauto.
      - intros i s' Li Ei Ll M. destruct (Nat.eq_dec i k) as [->|]; [destruct (Hno s' Ei Ll M)|]. apply (HN i s'); auto. lia. }
  (* the current literal is at the conflict level *)
  assert (Hlev : s_level s = d).
  { destruct (ui_cur _ _ _ _ HU k F) as [[_ G]|(x & G1 & G2)]; [congruence|]. exfalso.
    destruct (ui_der _ _ _ _ HU x G1) as (G3 & _). destruct (lpos_some _ _ _ G2) as (s' & G4 & G5).
    pose proof (tr_slev n t HT _ _ G4) as G6. rewrite G5 in G6. rewrite Es in G4. inv G4.
    rewrite Hlk in Hcnt. destruct (Nat.eqb_spec (s_level s') d) as [Q|Q]; [lia|].
    rewrite (cnt_0 ss d k) in Hcnt; [simpl in Hcnt; lia|].
    intros i Li Fi El. unfold levi in El. destruct (nth_error ss i) eqn:Ei; [|lia].
    pose proof (tr_mono n t HT i k _ _ ltac:(lia) Ei Es). lia. }
  rewrite Hlk, Hlev, Nat.eqb_refl in Hcnt. cbn [andb one] in Hcnt.
  rewrite (proj2 (vget_ok _ _ _) Es) in H. cbn [bind] in H.
  unfold an_set_count, an_set_current in H. cbn [an_current an_glue_flags an_derived an_count an_min] in H.
  destruct (Nat.ltb_spec 0 (an_count an)) as [_|G]; [|lia].
  destruct (canon_d k s Es Hlev) as [Hpos Hsl].
  assert (Mu : mt (S k) (neg (s_lit s))).
  { apply HV. apply (ga_fl _ _ _ _ HG) in F as (x & F1 & F2 & _). replace (neg (s_lit s)) with x; auto.
    apply (lpos_neg_eq _ _ k F2). rewrite neg_neg. auto. }
  destruct (Nat.eqb_spec (an_count an - 1) 0) as [Z|Z].
  - (* first UIP *)
    destruct (foldM _ _ _) as [cur'| |] in H; cbn [bind] in H; [|discriminate H..]. rewrite lnot_neg in H. inversion H; subst p' an' cb'.
    exists k, s, V, B. split; [constructor; auto|].
    + intros x M Lx. apply HV in M. destruct (ga_in _ _ _ _ HG x M) as [G1 G2]. destruct (lpos_in _ _ G1) as [j Ej]. exists j. split; auto.
      destruct (le_lt_dec k j) as [|Lj]; auto. exfalso.
      assert (Fj : flag (an_current an) j = true) by (apply (ga_fl _ _ _ _ HG); exists x; split; auto).
      assert (levi ss j = d). { unfold levi. destruct (lpos_some _ _ _ Ej) as (s' & E' & Q). rewrite E'. rewrite <- Lx, <- Q. symmetry. apply (tr_slev n t HT _ _ E'). }
      pose proof (cnt_pos ss d k (an_current an) j Lj Fj H0). lia.
    + split; [apply HG|]. split; auto. split; auto. split; [apply HG|]. split; auto.
      unfold an_set_derived, an_set_current. cbn [an_derived]. rewrite (ga_der _ _ _ _ HG). auto.
  - (* resolve with the reason *)
    assert (Hr : s_reason s <> RDecision).
    { intro R. rewrite (cnt_0 ss d k) in Hcnt; [lia|]. intros i Li Fi El. unfold levi in El.
      destruct (nth_error ss i) eqn:Ei; [|lia]. pose proof (dec_first n t k s i _ HT Es R Li Ei). lia. }
    set (an2 := mkAn (upd (an_current an) k false) (an_glue_flags an) (an_derived an) (an_count an - 1) (an_min an)) in *.
    assert (HU2 : UI k an2).
    { constructor; cbn [an2 an_current an_glue_flags an_derived an_count an_min]; try apply HU.
      - rewrite upd_length. auto.
      - intros i Fi. apply Hfl in Fi as [Ne Fi]. destruct (ui_cur _ _ _ _ HU i Fi) as [[G1 G2]|G]; auto. left. split; auto. lia.
      - intros x Hx. destruct (ui_der _ _ _ _ HU x Hx) as (G1 & i & G2 & G3). split; auto. exists i. split; auto.
        apply Hfl. split; auto. intros ->. destruct (lpos_some _ _ _ G2) as (s' & G4 & G5).
        pose proof (tr_slev n t HT _ _ G4) as G6. rewrite G5 in G6. replace s' with s in G6 by congruence. lia.
      - rewrite Hcu. lia. }
    assert (HG2 : GA k V an2 cb).
    { constructor; cbn [an2 an_current an_derived]; try apply HG. intro i. rewrite Hfl, (ga_fl _ _ _ _ HG). split.
      - intros (Ne & x & G1 & G2 & G3). exists x. split; auto. split; auto. destruct G3; [left; lia|auto].
      - intros (x & G1 & G2 & G3). split; [|exists x; split; auto; split; auto; destruct G3; auto]. intros ->. destruct G3 as [G3|G3]; [lia|].
        assert (neg x = s_lit s). { destruct (lpos_some _ _ _ G2) as (s' & E' & <-). congruence. } rewrite H0, Hsl in G3. lia. }
    destruct (PS_reason n es0 p0 p _ k s HS Es Hr) as (rl & _ & R2 & B2).
    assert (HN' : not_first k).
    { intros i s' Li Ei Ll M. destruct (Nat.eq_dec i k) as [->|]; [|apply (HN i s'); auto; lia].
      destruct (cnt_ex ss d k (an_current an)) as (j & J1 & J2 & J3); [lia|]. apply (ga_fl _ _ _ _ HG) in J2 as (x & X1 & X2 & X3). exists x. split; [apply HV; auto|].
      split; [|exists j; split; auto]. destruct (lpos_some _ _ _ X2) as (s2 & E2 & <-). rewrite (tr_slev n t HT _ _ E2). unfold levi in J3. rewrite E2 in J3. auto. }
    assert (Hstep : exists p1 B1, (match s_reason s with
            | RLong c =>
                let* (a', g') := bump_long_clause t (p_long p) c (an_glue_flags an2) in
                Ret (p_set_long p a', an_set_glue an2 g')
            | _ => Ret (p, an2)
            end) = Ret (p1, an2) /\ PS n es0 p0 p1 (bump_all ss B1 es0) /\ (forall c, In c B1 <-> ur k c)).
    { destruct (s_reason s) as [| |l|c] eqn:Er.
      1-3: exists p, B; split; auto; split; auto; intro c; rewrite HB, (used_resolve k s rl Es Hlev Mu R2 c), Er; split; auto; intros [Q|Q]; auto; discriminate.
      pose proof (pi_ri _ _ _ _ HP0 k s Es) as R. rewrite Er in R. destruct R as (h & r & R1 & _).
      assert (Hnb : ~ In c B) by (rewrite HB; eapply used_fresh; eauto).
      destruct (bump_all_snoc ss B c h (s_lit s :: r) es0 (LR_nodup _ _ (pi_lr _ _ _ _ HP0)) R1 Hnb) as [W1 W2].
      pose proof (ps_pi _ _ _ _ _ HS) as HP.
      destruct (bump_ok n t (p_long p) _ c h (s_lit s :: r) (an_glue_flags an) HT (pi_lr _ _ _ _ HP) W1) as (a' & E & A & A2 & A3).
      - intros x [<-|Hx]; [left; apply in_slits; eauto|right]. assert (rl = r). { eapply rsn_fun; eauto. unfold rsn. rewrite Er. eauto. }
        subst. eapply before_in; eauto.
      - apply HU.
      - apply HU.
      - cbn [an2 an_glue_flags]. rewrite E. cbn [bind]. exists (p_set_long p a'), (B ++ [c]). split; [reflexivity|]. rewrite W2 in A, A2. split.
        + constructor.
          * rewrite (ps_p _ _ _ _ _ HS). reflexivity.
          * eapply PI_headers; eauto.
          * eapply ESH_trans; [apply HS|]; auto.
          * intros Hu c2 h2 l2 H2 Hne. specialize (ps_un _ _ _ _ _ HS Hu) as U. rewrite <- W2 in H2. apply les_upd_in in H2 as [[E2 _]|[H2 _]].
            -- inv E2. rewrite A3. eapply U; eauto.
            -- eapply U; eauto.
        + intro c'. rewrite in_app_iff, HB, (used_resolve k s rl Es Hlev Mu R2 c'), Er. cbn [In]. split; intros [Q|Q]; auto.
          * destruct Q as [->|[]]. auto.
          * inversion Q; auto. }
    destruct Hstep as (p1 & B1 & E1 & HS1 & HB1). unfold an_set_glue in E1. cbn [an2 an_glue_flags] in E1. fold an2 in E1.
    unfold an_set_glue in H. cbn [an2 an_glue_flags] in H. fold an2 in H.
    rewrite E1 in H. cbn [bind] in H.
    destruct (PS_reason n es0 p0 p1 _ k s HS1 Es Hr) as (rl' & E2 & R3 & B3). rewrite (rsn_fun s rl' rl R3 R2) in E2. rewrite E2 in H. cbn [bind] in H.
    destruct (add_literals_ok n es0 p0 HP0 Hd m0 k rl B2 an2 cb HU2 HC) as (an3 & cb3 & E3 & HU3 & HC3 & L3 & _).
    rewrite E3 in H. cbn [bind] in H.
    destruct (add_literals_g k rl B2 V an2 cb an3 cb3 HU2 HC HG2 E3) as (V3 & G3 & I3).
    eapply (IH ltac:(lia) p1 an3 cb3 V3 B1); try eassumption.
    + exact (proj1 HC3).
    + cbn [an2 an_count] in L3. lia.
    + intro x. rewrite I3, HV, (met_resolve k s rl Es Hlev Mu R2). tauto.
Qed.
End Derive.

(** ** The whole derivation *)
Record traced (n : nat) (es : list lent) (p : prop) (cf : conflict) (cl : list N) (v v1 : vsids) (der : list N) (u : step)
    (k : nat) (V : list N) (B : list cref) : Prop := {
  tc_u : uip_at es p cl k u;
  tc_nd : NoDup V;
  tc_in : forall x, In x V -> In (neg x) (slits (t_steps (p_trail p)));
  tc_v : forall x, In x V <-> met es (t_steps (p_trail p)) (decision_level (p_trail p)) cl (S k) x;
  tc_b : forall c, In c B <-> used_ref es (t_steps (p_trail p)) (decision_level (p_trail p)) cl cf (S k) c;
  tc_bump : foldM bump_var V v = Ret v1;
  tc_der : der = filter (fun x => slev (t_steps (p_trail p)) (neg x) <? decision_level (p_trail p)) V }.

Lemma met_in n es p cl k x : PI n es p -> (forall x, In x cl -> In (neg x) (slits (t_steps (p_trail p)))) ->
  met es (t_steps (p_trail p)) (decision_level (p_trail p)) cl k x -> In (neg x) (slits (t_steps (p_trail p))).
Proof.
  intros HP Hcl H. destruct H as [x A _|i s rl x A B C D E F _]; auto. eapply before_in. eapply rsn_before; eauto.
Qed.

Lemma derive_exact n es p an c cb : PI n es p -> 1 <= decision_level (p_trail p) -> AN an -> CB n cb -> conf_ok n es p c ->
  exists cl p' an' cb' der u k V B, derive_1uip_clause an p c cb = Ret (p', an', cb') /\
    conflict_lits (p_long p) c = Ret cl /\ PS n es p p' (bump_all (t_steps (p_trail p)) B es) /\ CBs n cb cb' /\ AN an' /\
    decision_level (p_trail p) < length (an_glue_flags an') /\
    an_derived an' = der ++ [neg (s_lit u)] /\ derived_ok es p cl der u /\
    traced n es p c cl (cb_vsids cb) (cb_vsids cb') der u k V B.
Proof.
  intros HP Hd HA HC Hc. destruct (derive_ok n es p an c cb HP Hd HA HC Hc) as (cl & p' & es' & an' & cb' & der & u & E & Ecl & HS & HCB & HA' & HG & Eder & HD).
  destruct Hc as (cl' & Ecl' & Hst & Hf & x & Hx & Hlev). rewrite Ecl in Ecl'. inversion Ecl'; subst cl'. clear Ecl'.
  pose proof (pi_tr _ _ _ _ HP) as HT. pose proof E as E0. unfold derive_1uip_clause in E. set (an1 := update_trail_len (an_set_derived an []) (p_trail p)) in *.
  assert (HPS0 : PS n es p p es). { constructor; auto; [destruct p; reflexivity|apply ESH_refl]. }
  assert (HU1 : UI p (an_min an) (length (t_steps (p_trail p))) an1).
  { constructor; unfold an1, update_trail_len, an_set_derived; cbn [an_current an_glue_flags an_derived an_count an_min]; auto.
    - apply vresize_max.
    - pose proof (vresize_max (an_glue_flags an) (decision_level (p_trail p) + 1) false). lia.
    - apply allf_vresize, HA.
    - intros i F. rewrite allf_flag in F; [discriminate|]. apply allf_vresize, HA.
    - intros y [].
    - constructor.
    - rewrite (an_cnt0 _ HA), cnt_0; auto. intros i _ F. rewrite allf_flag in F; [discriminate|]. apply allf_vresize, HA. }
  assert (HG1 : GA p (cb_vsids cb) (length (t_steps (p_trail p))) [] an1 cb).
  { constructor; unfold an1, update_trail_len, an_set_derived; cbn [an_current an_derived]; auto; try reflexivity.
    - constructor.
    - intros y [].
    - intro i. split; [|intros (y & [] & _)]. intro F. rewrite allf_flag in F; [discriminate|]. apply allf_vresize, HA. }
  assert (Hcf : match c with CLong c => exists h, In (c, h, cl) es /\ cl <> [] | CBinary _ _ => True end) by (destruct c; auto).
  assert (Hstep : exists p1 B1, (match c with
        | CLong c =>
            let* (a', g') := bump_long_clause (p_trail p) (p_long p) c (an_glue_flags an1) in
            Ret (p_set_long p a', an_set_glue an1 g')
        | _ => Ret (p, an1)
        end) = Ret (p1, an1) /\ PS n es p p1 (bump_all (t_steps (p_trail p)) B1 es) /\ forall c', In c' B1 <-> c = CLong c').
  { destruct c as [a b|c].
    { exists p, []. rewrite bump_all_nil. split; auto. split; auto. intro c'. split; [intros []|discriminate]. }
    destruct Hst as (h & Hi & Hne).
    destruct (bump_all_snoc (t_steps (p_trail p)) [] c h cl es (LR_nodup _ _ (pi_lr _ _ _ _ HP)) Hi ltac:(intros [])) as [W1 W2].
    rewrite bump_all_nil in W2. cbn [app] in W2.
    destruct (bump_ok n (p_trail p) (p_long p) es c h cl (an_glue_flags an1) HT (pi_lr _ _ _ _ HP) Hi) as (a' & Eb & A & A2 & A3).
    - intros y Hy. right. auto.
    - apply HU1.
    - apply HU1.
    - rewrite Eb. cbn [bind]. exists (p_set_long p a'), [c]. split; [reflexivity|]. rewrite W2 in A, A2. split.
      + constructor; auto.
        * eapply PI_headers; eauto.
        * intros Hu c2 h2 l2 H2 Hne2. rewrite <- W2 in H2. apply les_upd_in in H2 as [[E2 _]|[H2 _]]; [inv E2; rewrite A3|]; eapply Hu; eauto.
      + intro c'. cbn [In]. split; [intros [->|[]]; auto|]. intro Q. inversion Q. auto. }
  destruct Hstep as (p1 & B1 & E1 & HS1 & HB1). rewrite E1 in E. cbn [bind] in E.
  assert (Ecl1 : conflict_lits (p_long p1) c = Ret cl).
  { destruct c as [a b|c]; [exact Ecl|]. destruct Hst as (h & Hi & Hne).
    destruct (ESH_in _ _ _ _ _ (ps_es _ _ _ _ _ HS1) Hi) as (h' & Hi' & _).
    apply (LR_lits _ _ (pi_lr _ _ _ _ (ps_pi _ _ _ _ _ HS1)) _ _ _ Hi'). }
  rewrite Ecl1 in E. cbn [bind] in E.
  assert (Hb : forall y, In y cl -> before (t_steps (p_trail p)) (length (t_steps (p_trail p))) (neg y)).
  { intros y Hy. destruct (lpos_in _ _ (Hf y Hy)) as [i Ei]. exists i. split; auto. eapply lpos_lt; eauto. }
  destruct (add_literals_ok n es p HP Hd (an_min an) _ cl Hb an1 cb HU1 HC) as (an2 & cb2 & E2 & HU2 & HC2 & L2 & D2 & O2).
  rewrite E2 in E. cbn [bind] in E.
  destruct (add_literals_g n es p HP Hd (an_min an) (cb_vsids cb) _ cl Hb [] an1 cb an2 cb2 HU1 HC HG1 E2) as (V & HG2 & HV).
  destruct (uip_loop _ _ _ _) as [[[p2 an4] cb4]| |] eqn:E3 in E; cbn [bind] in E; [|discriminate E..]. destruct (Nat.eqb _ _); [|discriminate E].
  inversion E; subst p2 an4 cb4. clear E.
  assert (Htop : forall i s, nth_error (t_steps (p_trail p)) i = Some s -> length (t_steps (p_trail p)) <= i -> False).
  { intros i s A B. assert (i < length (t_steps (p_trail p))) by (apply nth_error_Some; congruence). lia. }
  destruct (uip_loop_g n es p HP Hd (an_min an) (cb_vsids cb) cl c Hcf Hf (length (t_steps (p_trail p))) (le_n _) p1 an2 cb2 V B1 p' an' cb' HS1 HU2 (proj1 HC2))
    as (k & u' & V' & B' & K1 & K2 & K3 & K4 & K5 & K6 & K7); auto.
  - eapply D2; eauto.
  - intro y. rewrite HV. split.
    + intros [[]|[Y1 Y2]]. constructor; auto.
    + intros [y' Y1 Y2|i s rl y' A B _ _ _ _ _]; auto. exfalso. eauto.
  - intro c'. rewrite HB1. split; [left; auto|]. intros [Q|(i & s & A & B & _)]; auto. exfalso. eauto.
  - intros i s A B. exfalso. eauto.
  - rewrite Eder in K7. apply app_inj_tail in K7 as [K7 K8].
    assert (u' = u).
    { destruct (do_u _ _ _ _ _ HD) as (i & U1 & U2). assert (Q : s_lit u' = s_lit u) by (rewrite <- (neg_neg (s_lit u')), <- K8, neg_neg; auto).
      destruct (canon_d n es p HP Hd k u' (ua_u _ _ _ _ _ K1) (ua_lev _ _ _ _ _ K1)) as [Q1 _]. rewrite Q, U2 in Q1. inversion Q1; subst. pose proof (ua_u _ _ _ _ _ K1). congruence. }
    subst u'. exists cl, p', an', cb', der, u, k, V', B'. split; auto. split; auto. split; auto. split; auto. split; auto. split; auto. split; auto. split; auto.
    constructor; auto. intros y Hy. eapply met_in; eauto. apply K3; auto.
Qed.
