(** Recursive clause minimization. *)
From Coq Require Import NArith List Bool Arith Lia Permutation Sorted ZifyN ZifyNat ZifyBool.
From Verif Require Import Model_Base Model_Lit Model_PartialAssignment Model_Header Model_Arena Model_Prop
  Model_Heap Model_Vsids Model_Analysis Spec Drivers_Arena Proof_Base Proof_PA Proof_Lit Proof_Header Proof_Arena
  Proof_ArenaHist Proof_Long Proof_Trail Proof_Heap Proof_Backtrack Proof_Inv Proof_Propagate Proof_PropOps Proof_Glue
  Proof_Analysis.
Import ListNotations.

Section Min.
Variables (n : nat) (es : list lent) (p : prop).
Hypothesis HP : PI n es p.
Notation t := (p_trail p).
Notation ss := (t_steps t).
Notation d := (decision_level t).
Let HT : TR n t := pi_tr _ _ _ _ HP.

(** [l] follows from the falsification of [K] over the recorded reasons. *)
Definition imp (K : list N) (l : N) : Prop :=
  forall U, closed es ss U -> (forall x, In x K -> U (neg x)) -> U l.

Lemma imp_mono K K' l : (forall x, In x K -> In x K') -> imp K l -> imp K' l.
Proof. intros S H U HU HK. apply H; auto. Qed.
Lemma imp_in K x : In x K -> imp K (neg x).
Proof. intros Hx U _ HK. auto. Qed.
Lemma imp_reason K i s rl : nth_error ss i = Some s -> rsn es s rl -> (forall x, In x rl -> imp K (neg x)) -> imp K (s_lit s).
Proof. intros E R H U HU HK. apply (HU i s rl E R). intros x Hx. apply (H x Hx U HU HK). Qed.
Lemma imp_zero K i s : nth_error ss i = Some s -> s_level s = 0 -> imp K (s_lit s).
Proof. intros E L U HU _. eapply closed_zero; eauto. Qed.

(** *** What does not follow *)
Lemma rsn_uniq s rl rl' : rsn es s rl -> rsn es s rl' -> rl = rl'.
Proof.
  unfold rsn. destruct (s_reason s); try congruence; try contradiction. intros (h1 & R1) (h2 & R2).
  pose proof (LR_lits _ _ (pi_lr _ _ _ _ HP) _ _ _ R1) as X. rewrite (LR_lits _ _ (pi_lr _ _ _ _ HP) _ _ _ R2) in X. congruence.
Qed.
Lemma rsn_before i s rl x : nth_error ss i = Some s -> rsn es s rl -> In x rl -> before ss i (neg x).
Proof.
  intros E R Hx. assert (Hd : s_reason s <> RDecision) by (unfold rsn in R; destruct (s_reason s); congruence).
  destruct (reason_lits_ok n es p i s HP E Hd) as (rl' & _ & R' & B'). apply B'. rewrite (rsn_uniq _ _ _ R' R). auto.
Qed.
Lemma lpos_uniq i s : nth_error ss i = Some s -> 1 <= s_level s -> lpos ss (s_lit s) = Some i.
Proof.
  intros E L. destruct (lpos_in ss (s_lit s)) as [j Ej]; [apply in_slits; eauto|]. rewrite Ej. destruct (lpos_some _ _ _ Ej) as (s' & E' & El).
  destruct (Nat.lt_total i j) as [G|[->|G]]; auto.
  - destruct (tr_dup _ _ HT i j s s' G E E' (eq_sym El)) as [[]]; lia.
  - destruct (tr_dup _ _ HT j i s' s G E' E El) as [[]]; lia.
Qed.
Lemma slev_nth i s l : nth_error ss i = Some s -> s_lit s = l -> slev ss l = s_level s.
Proof. intros E <-. apply (tr_slev n t HT _ _ E). Qed.

Definition kpos (K : list N) (i : nat) : Prop := exists x, In x K /\ lpos ss (neg x) = Some i.

Lemma imp_inv K i s : nth_error ss i = Some s -> 1 <= s_level s -> imp K (s_lit s) ->
  kpos K i \/ exists rl, rsn es s rl /\ forall x, In x rl -> imp K (neg x).
Proof.
  intros E L H.
  assert (G : (exists x, In x K /\ s_lit s = neg x) \/
     exists i' s' rl, nth_error ss i' = Some s' /\ s_lit s' = s_lit s /\ rsn es s' rl /\ forall x, In x rl -> imp K (neg x)).
  { apply (H (fun l => (exists x, In x K /\ l = neg x) \/
       exists i' s' rl, nth_error ss i' = Some s' /\ s_lit s' = l /\ rsn es s' rl /\ forall x, In x rl -> imp K (neg x))).
    - intros i' s' rl E' R Hrl. right. exists i', s', rl. split; auto. split; auto. split; auto. intros x Hx.
      destruct (Hrl x Hx) as [(y & Hy & ->)|(j & sj & rl' & Ej & El & Rj & Hj)]; [apply imp_in; auto|]. rewrite <- El. eapply imp_reason; eauto.
    - intros x Hx. left. eauto. }
  destruct G as [(x & Hx & El)|(i' & s' & rl & E' & El & R & Hrl)].
  - left. exists x. split; auto. rewrite <- El. apply lpos_uniq; auto.
  - right. exists rl. split; auto. assert (L' : 1 <= s_level s') by (rewrite <- (slev_nth _ _ _ E' El), (slev_nth _ _ _ E eq_refl); auto).
    pose proof (lpos_uniq _ _ E L) as A. pose proof (lpos_uniq _ _ E' L') as B. rewrite El in B. assert (i = i') by congruence. subst i'.
    replace s with s' by congruence. auto.
Qed.
Lemma no_imp_reason K i s rl x : nth_error ss i = Some s -> 1 <= s_level s -> rsn es s rl -> ~ kpos K i ->
  In x rl -> ~ imp K (neg x) -> ~ imp K (s_lit s).
Proof.
  intros E L R Hk Hx Hn H. destruct (imp_inv K i s E L H) as [G|(rl' & R' & G)]; auto. rewrite (rsn_uniq _ _ _ R R') in Hx. auto.
Qed.

(** Among the literals of a reason one has the level of the implied literal. *)
Lemma rsn_level i s rl : nth_error ss i = Some s -> rsn es s rl -> 1 <= s_level s -> exists x, In x rl /\ slev ss (neg x) = s_level s.
Proof.
  intros E HR L1. pose proof (pi_vr _ _ _ _ HP) as VRp.
  assert (Q : forall x, before ss i (neg x) -> slev ss (neg x) <= s_level s /\
    (In (neg x) (slits (firstn (t_propagated t) ss)) \/ slev ss (neg x) = s_level s)).
  { intros x (j & Ej & Lj). destruct (lpos_some _ _ _ Ej) as (sj & A & El). pose proof (slev_nth _ _ _ A El) as Ev.
    assert (Le : s_level sj <= s_level s) by (apply (tr_mono _ _ HT j i); auto; lia). split; [lia|].
    destruct (Nat.ltb_spec j (t_propagated t)) as [Lq|Lq].
    - left. rewrite <- El. apply in_map. apply nth_error_In with j. rewrite nth_error_firstn. destruct (Nat.ltb_spec j (t_propagated t)); [auto|lia].
    - right. rewrite Ev. pose proof (tr_lev_last _ _ HT _ _ A Lq). pose proof (tr_lev_le _ _ HT _ _ E). lia. }
  pose proof (pi_ri _ _ _ _ HP i s E) as R. pose proof (slev_nth _ _ _ E eq_refl) as LV.
  assert (HB : forall x, In x rl -> before ss i (neg x)) by (intros; eapply rsn_before; eauto).
  unfold rsn in HR. destruct (s_reason s) as [| |b|c] eqn:Er; try contradiction.
  - lia.
  - subst rl. exists b. split; [left; auto|]. destruct R as [R1 R2]. destruct (Q b R2) as [Q0 [Q1|Q1]]; auto.
    assert (Hs' : In (s_lit s) (slits ss)) by (apply in_slits; eauto).
    pose proof (VR_range _ _ _ _ VRp Hs') as Hn.
    destruct (bi_sym _ _ (pi_bi _ _ _ _ HP) (s_lit s) b Hn R1) as [Hb Hs2].
    destruct (pi_pb _ _ _ _ HP b (s_lit s) Hb Hs2 Q1) as [_ Le]. lia.
  - destruct HR as (h & R1). destruct (pi_ll _ _ _ _ HP _ _ _ R1 ltac:(discriminate)) as (L3 & _). destruct rl as [|b r]; cbn [length] in L3; [lia|].
    exists b. split; [left; auto|]. destruct (Q b (HB b (or_introl eq_refl))) as [Q0 [Q1|Q1]]; auto.
    destruct (pi_pl _ _ _ _ HP _ _ _ _ _ R1 b (or_intror eq_refl) Q1) as (t' & Ht & Tt & Le).
    destruct Ht as [<-|Ht]; [lia|]. exfalso. destruct (HB t' Ht) as (j & Ej & _). destruct (lpos_some _ _ _ Ej) as (sj & A & Et).
    apply (VR_cons _ _ _ t' VRp); auto. rewrite <- Et. apply in_map. eapply nth_error_In; eauto.
Qed.

(** A literal before all literals of [K] of its level does not follow from [K]. *)
Lemma no_imp_first K : forall i s, nth_error ss i = Some s -> 1 <= s_level s ->
  (forall x j, In x K -> slev ss (neg x) = s_level s -> lpos ss (neg x) = Some j -> i < j) -> ~ imp K (s_lit s).
Proof.
  induction i as [i IH] using lt_wf_ind. intros s E L H G. destruct (imp_inv K i s E L G) as [(x & Hx & Ex)|(rl & R & Hrl)].
  - destruct (lpos_some _ _ _ Ex) as (s' & E' & El). assert (s' = s) by congruence. subst s'.
    specialize (H x i Hx (slev_nth _ _ _ E El) Ex). lia.
  - destruct (rsn_level _ _ _ E R L) as (x & Hx & Lx). destruct (rsn_before _ _ _ _ E R Hx) as (j & Ej & Lj).
    destruct (lpos_some _ _ _ Ej) as (sj & E' & El). pose proof (slev_nth _ _ _ E' El) as Lv.
    apply (IH j Lj sj E'); [lia| |rewrite El; auto]. intros y k Hy Ly Ek. rewrite Lx in Lv. specialize (H y k Hy ltac:(lia) Ek). lia.
Qed.

(** Only earlier literals matter. *)
Lemma imp_restrict K K' : (forall x, In x K -> In (neg x) (slits ss)) -> forall i s, nth_error ss i = Some s ->
  (forall x j, In x K -> lpos ss (neg x) = Some j -> j <= i -> In x K') -> imp K (s_lit s) -> imp K' (s_lit s).
Proof.
  intro HK. induction i as [i IH] using lt_wf_ind. intros s E H G. destruct (Nat.eq_dec (s_level s) 0) as [Z|Z]; [eapply imp_zero; eauto|].
  destruct (imp_inv K i s E ltac:(lia) G) as [(x & Hx & Ex)|(rl & R & Hrl)].
  - destruct (lpos_some _ _ _ Ex) as (s' & E' & El). assert (s' = s) by congruence. subst s'. rewrite El. apply imp_in. eauto.
  - eapply imp_reason; eauto. intros x Hx. destruct (rsn_before _ _ _ _ E R Hx) as (j & Ej & Lj).
    destruct (lpos_some _ _ _ Ej) as (sj & E' & El). rewrite <- El. apply (IH j Lj sj E'); [|rewrite El; auto].
    intros y k Hy Ek Lk. apply (H y k Hy Ek). lia.
Qed.

(** The entries of the cache are right for the literals [K] kept so far; entries
    for literals that do not follow are below [B]. *)
Record MI (B : nat) (K : list N) (m : minim) : Prop := {
  mi_l : length ss <= length (mi_cache m);
  mi_f : d < length (mi_first m);
  mi_t : forall i s, nth_error (mi_cache m) i = Some (Some true) -> nth_error ss i = Some s -> imp K (s_lit s);
  mi_k : forall x, In x K -> exists i, lpos ss (neg x) = Some i /\ nth_error (mi_cache m) i = Some (Some true);
  mi_1 : forall lev f, 1 <= lev -> nth_error (mi_first m) lev = Some (Some f) ->
    exists x, In x K /\ lpos ss (neg x) = Some f /\ slev ss (neg x) = lev;
  mi_c : forall i b, nth_error (mi_cache m) i = Some (Some b) -> In i (mi_clean m);
  mi_b : forall i, In i (mi_clean m) -> i < length (mi_cache m);
  mi_n : forall i s, nth_error (mi_cache m) i = Some (Some false) -> nth_error ss i = Some s -> ~ imp K (s_lit s);
  mi_bd : forall i, nth_error (mi_cache m) i = Some (Some false) -> i < B;
  mi_0 : nth_error (mi_first m) 0 = Some (Some 0);
  mi_ff : forall x j, In x K -> lpos ss (neg x) = Some j ->
    exists f, nth_error (mi_first m) (slev ss (neg x)) = Some (Some f) /\ f <= j }.
Lemma MI_bound B B' K m : MI B K m -> B <= B' -> MI B' K m.
Proof. intros H L. constructor; try apply H. intros i E. pose proof (mi_bd _ _ _ H i E). lia. Qed.

(** Only the entry [r] of the cache may be overwritten. *)
Definition mono (r : nat) (m m' : minim) : Prop :=
  mi_first m' = mi_first m /\ length (mi_cache m') = length (mi_cache m) /\
  forall j b, j <> r -> nth_error (mi_cache m) j = Some (Some b) -> nth_error (mi_cache m') j = Some (Some b).

Lemma mono_refl r m : mono r m m.
Proof. repeat split; auto. Qed.
Lemma mono_trans r m1 m2 m3 : mono r m1 m2 -> mono r m2 m3 -> mono r m1 m3.
Proof. intros (A & B & C) (A' & B' & C'). split; [congruence|]. split; [congruence|]. auto. Qed.
(** Writing an uncached entry. *)
Lemma mono_weak r i m m' : mono i m m' -> (forall b, nth_error (mi_cache m) i <> Some (Some b)) -> mono r m m'.
Proof. intros (A & B & C) H. split; auto. split; auto. intros j b _ E. apply C; auto. intros ->. eapply H; eauto. Qed.

Lemma cache_set_ok B K m i b s : MI B K m -> nth_error ss i = Some s -> (b = true -> imp K (s_lit s)) ->
  (b = false -> ~ imp K (s_lit s) /\ i < B) ->
  exists m', cache_set m i b = Ret m' /\ MI B K m' /\ mono i m m' /\ nth_error (mi_cache m') i = Some (Some b).
Proof.
  intros H E H1 H2. assert (Hi : i < length ss) by (apply nth_error_Some; congruence).
  pose proof (mi_l _ _ _ H) as HL. unfold cache_set. rewrite vset_lt by lia. cbn [bind].
  eexists. split; [reflexivity|]. cbn [mi_cache mi_first mi_clean].
  assert (Hn : forall j, nth_error (upd (mi_cache m) i (Some b)) j = if i =? j then Some (Some b) else nth_error (mi_cache m) j).
  { intro j. rewrite upd_nth. destruct (Nat.eqb_spec i j); auto. destruct (Nat.ltb_spec i (length (mi_cache m))); auto. lia. }
  split; [|split].
  - constructor; cbn [mi_cache mi_first mi_clean]; try apply H.
    + rewrite upd_length. auto.
    + intros j s' Ej Es. rewrite Hn in Ej. destruct (Nat.eqb_spec i j) as [<-|N].
      * inv Ej. rewrite E in Es. inv Es. auto.
      * eapply (mi_t _ _ _ H); eauto.
    + intros x Hx. destruct (mi_k _ _ _ H x Hx) as (j & A & B0). exists j. split; auto. rewrite Hn.
      destruct (Nat.eqb_spec i j) as [->|N]; auto. destruct b; auto. exfalso. apply H2; auto.
      destruct (lpos_some _ _ _ A) as (s' & E' & El). replace s with s' by congruence. rewrite El. apply imp_in; auto.
    + intros j b' Ej. rewrite Hn in Ej. apply in_or_app. destruct (Nat.eqb_spec i j) as [->|N]; [right; left; auto|].
      left. eapply (mi_c _ _ _ H); eauto.
    + intros j Hj. rewrite upd_length. apply in_app_or in Hj as [Hj|[<-|[]]]; [eapply (mi_b _ _ _ H); eauto|lia].
    + intros j s' Ej Es. rewrite Hn in Ej. destruct (Nat.eqb_spec i j) as [<-|N].
      * inv Ej. rewrite E in Es. inv Es. apply H2; auto.
      * eapply (mi_n _ _ _ H); eauto.
    + intros j Ej. rewrite Hn in Ej. destruct (Nat.eqb_spec i j) as [Q|N].
      * subst j. inv Ej. apply H2; auto.
      * eapply (mi_bd _ _ _ H); eauto.
  - split; auto. cbn [mi_cache]. rewrite upd_length. split; auto. intros j b' N Ej. rewrite Hn. destruct (Nat.eqb_spec i j); auto. congruence.
  - rewrite Hn, Nat.eqb_refl. auto.
Qed.

Definition uncached (m : minim) (i : nat) : Prop := nth_error (mi_cache m) i = Some None.
Lemma uncached_no m i b : uncached m i -> nth_error (mi_cache m) i <> Some (Some b).
Proof. unfold uncached. congruence. Qed.
Lemma uncached_kpos B K m i : MI B K m -> uncached m i -> ~ kpos K i.
Proof. intros H U (x & Hx & E). destruct (mi_k _ _ _ H x Hx) as (j & A & B0). unfold uncached in U. congruence. Qed.

Lemma first_no_imp B K m i s f : MI B K m -> nth_error ss i = Some s -> 1 <= s_level s ->
  nth_error (mi_first m) (s_level s) = Some f -> first_gt f i = true -> ~ imp K (s_lit s).
Proof.
  intros H E L Ef G. apply (no_imp_first K i s E L). intros x j Hx Lx Ej. destruct (mi_ff _ _ _ H x j Hx Ej) as (f' & Ef' & Le).
  rewrite Lx, Ef in Ef'. inv Ef'. cbn [first_gt] in G. apply Nat.ltb_lt in G. lia.
Qed.

Lemma cached_ok B K m i s : MI B K m -> nth_error ss i = Some s ->
  exists c, redundant_cached m i t = Ret c /\
    match c with
    | Some true => imp K (s_lit s)
    | Some false => ~ imp K (s_lit s)
    | None => uncached m i /\ s_reason s <> RDecision /\ 1 <= s_level s
    end.
Proof.
  intros H E. assert (Hi : i < length ss) by (apply nth_error_Some; congruence).
  pose proof (mi_l _ _ _ H) as HL. unfold redundant_cached.
  destruct (nth_error (mi_cache m) i) as [c|] eqn:Ec; [|apply nth_error_None in Ec; lia].
  rewrite (proj2 (vget_ok _ _ _) Ec). cbn [bind]. destruct c as [b|].
  - exists (Some b). split; auto. destruct b; [eapply (mi_t _ _ _ H); eauto|eapply (mi_n _ _ _ H); eauto].
  - rewrite (proj2 (vget_ok _ _ _) E). cbn [bind]. pose proof (tr_lev_le n t HT _ _ E) as Hle. pose proof (mi_f _ _ _ H) as Hf.
    destruct (nth_error (mi_first m) (s_level s)) as [f|] eqn:Ef; [|apply nth_error_None in Ef; lia].
    rewrite (proj2 (vget_ok _ _ _) Ef). cbn [bind]. destruct (first_gt f i) eqn:G.
    { exists (Some false). split; auto. destruct (Nat.eq_dec (s_level s) 0) as [Z|Z]; [|eapply first_no_imp; eauto; lia].
      rewrite Z, (mi_0 _ _ _ H) in Ef. inv Ef. discriminate. }
    destruct (Nat.eqb_spec (s_level s) 0) as [Z|Z].
    + exists (Some true). split; auto. eapply imp_zero; eauto.
    + exists None. split; auto. split; [exact Ec|]. split; [|lia]. intro R. destruct f as [f|]; [|discriminate]. cbn [first_gt] in G.
      destruct (mi_1 _ _ _ H (s_level s) f) as (x & A & B0 & C); [lia|auto|].
      destruct (lpos_some _ _ _ B0) as (s' & Es' & El). pose proof (tr_slev n t HT _ _ Es') as Q. rewrite El in Q.
      destruct (Nat.eq_dec f i) as [->|N].
      * apply (uncached_kpos B K m i H Ec). exists x; auto.
      * pose proof (dec_first n t i s f s' HT E R ltac:(lia) Es'). lia.
Qed.

Lemma lookahead_ok B K m : MI B K m -> forall ls b, (forall x, In x ls -> In (neg x) (slits ss)) ->
  exists r, lookahead m t ls b = Ret r /\ (r = Some true -> forall x, In x ls -> imp K (neg x)) /\
    (r = None -> exists x, In x ls /\ ~ imp K (neg x)).
Proof.
  intro H. induction ls as [|l r IH]; intros b Hin.
  - exists (Some b). split; auto. split; [intros _ x []|discriminate].
  - destruct (tr_index_neg n t HT l (Hin l (or_introl eq_refl))) as (i & s & A & B0 & C & D & E).
    cbn [lookahead]. rewrite A. cbn [bind]. destruct (cached_ok B K m i s H C) as (c & Ec & Hc). rewrite Ec. cbn [bind].
    destruct c as [[]|].
    + destruct (IH b (fun x Hx => Hin x (or_intror Hx))) as (r' & E1 & E2 & E3). exists r'. split; auto. split.
      * intros Q x [<-|Hx]; [rewrite <- D; auto|auto].
      * intro Q. destruct (E3 Q) as (x & Hx & Nx). exists x. split; auto. right; auto.
    + exists None. split; auto. split; [discriminate|]. intros _. exists l. split; [left; auto|]. rewrite <- D. auto.
    + destruct (IH false (fun x Hx => Hin x (or_intror Hx))) as (r' & E1 & E2 & E3). exists r'. split; auto. split.
      2:{ intro Q. destruct (E3 Q) as (x & Hx & Nx). exists x. split; auto. right; auto. }
      intros Q. exfalso. clear - Q E1. subst r'. revert E1.
      assert (G : forall ls m, lookahead m t ls false <> Ret (Some true)).
      { clear. intros ls m. induction ls as [|l r IH]; cbn [lookahead]; [discriminate|].
        destruct (trail_index t l); cbn [bind]; try discriminate. destruct (redundant_cached m a t) as [[[]|]| |]; cbn [bind]; auto; discriminate. }
      apply G.
Qed.

(** *** The iterative search *)
Fixpoint chain (K : list N) (above : option nat) (conf : list (nat * list N)) : Prop :=
  match conf with
  | [] => True
  | (j, ls) :: r => exists s rl, (nth_error ss j = Some s /\ 1 <= s_level s) /\ rsn es s rl /\
      (forall x, In x ls -> In x rl) /\
      (forall x, In x rl -> imp K (neg x) \/ In x ls \/ lpos ss (neg x) = above) /\
      (forall x, above = Some x -> x < j /\ exists y, In y rl /\ lpos ss (neg y) = Some x) /\ chain K (Some j) r
  end.

Lemma chain_above K conf j : chain K (Some j) conf -> forall x, In x (map fst conf) -> j < x.
Proof.
  revert j. induction conf as [|[k ls] r IH]; intros j H x Hx; [contradiction|].
  destruct H as (s & rl & _ & _ & _ & _ & A & B). destruct (A j eq_refl) as [A1 _]. destruct Hx as [<-|Hx]; simpl; auto.
  specialize (IH _ B x Hx). lia.
Qed.

Lemma chain_pop K j s conf : nth_error ss j = Some s -> imp K (s_lit s) -> chain K (Some j) conf -> chain K None conf.
Proof.
  intros E Hi H. destruct conf as [|[k ls] r]; auto. destruct H as (s' & rl & A & B & C & D & F & G).
  exists s', rl. do 3 (split; [auto|]). split; [|split; [discriminate|auto]].
  intros x Hx. destruct (D x Hx) as [Q|[Q|Q]]; auto. left. destruct (lpos_some _ _ _ Q) as (s2 & E2 & <-).
  replace s2 with s by congruence. auto.
Qed.

(** If an entry of the stack does not follow, neither do those below it. *)
Lemma chain_no_imp K conf : forall i s, nth_error ss i = Some s -> ~ imp K (s_lit s) -> chain K (Some i) conf ->
  (forall j, In j (map fst conf) -> ~ kpos K j) ->
  forall j sj, In j (map fst conf) -> nth_error ss j = Some sj -> ~ imp K (s_lit sj).
Proof.
  induction conf as [|[k ls] r IH]; intros i s E Hn H Hk j sj Hj Ej; [contradiction|].
  destruct H as (s' & rl & [A A'] & R & _ & _ & F & G). destruct (F i eq_refl) as (_ & y & Hy & Ey).
  destruct (lpos_some _ _ _ Ey) as (sy & Esy & El). assert (sy = s) by congruence. subst sy.
  assert (Hn' : ~ imp K (s_lit s')). { eapply no_imp_reason; eauto; [apply Hk; left; auto|rewrite <- El; auto]. }
  destruct Hj as [<-|Hj]; cbn [fst] in *; [congruence|]. apply (IH k s' A Hn' G) with j; auto. intros; apply Hk; right; auto.
Qed.

Lemma poison_ok B K conf : forall m root, MI B K m ->
  (forall j, In j (map fst conf) -> exists s, nth_error ss j = Some s) ->
  (forall j s, In j (map fst conf) -> nth_error ss j = Some s -> ~ imp K (s_lit s)) ->
  (forall j, In j (map fst conf) -> j < B) ->
  (forall j, In j (map fst conf) -> j = root \/ uncached m j) -> NoDup (map fst conf) ->
  exists m', poison_stack m conf = Ret m' /\ MI B K m' /\ mono root m m'.
Proof.
  induction conf as [|[j ls] r IH]; intros m root H Hs Hk Hb Hu ND.
  - exists m. split; [reflexivity|]. split; auto. apply mono_refl.
  - cbn [map fst] in *. apply NoDup_cons_iff in ND as [N1 N2].
    destruct (Hs j (or_introl eq_refl)) as [s Es].
    destruct (cache_set_ok B K m j false s H Es) as (m1 & E1 & H1 & M1 & _);
      [discriminate|intros _; split; [apply (Hk j s (or_introl eq_refl) Es)|apply Hb; left; auto]|].
    unfold poison_stack. cbn [foldM fst]. rewrite E1. cbn [bind].
    destruct (IH m1 root H1) as (m2 & E2 & H2 & M2); auto.
    + intros; apply Hs; right; auto.
    + intros k sk Hkk. apply Hk; right; auto.
    + intros; apply Hb; right; auto.
    + intros k Hkk. destruct (Hu k (or_intror Hkk)) as [->|U]; auto. right. 
      assert (k <> j) by (intros ->; auto). unfold cache_set in E1.
      destruct (vset _ _ _) eqn:Ev; try discriminate. cbn [bind] in E1. inv E1. apply vset_ok in Ev as [_ ->].
      unfold uncached. cbn [mi_cache]. rewrite upd_other; auto.
    + exists m2. split; auto. split; auto. eapply mono_trans; eauto.
      destruct (Hu j (or_introl eq_refl)) as [->|U]; auto. eapply mono_weak; eauto. intro b. apply uncached_no; auto.
Qed.

Definition w (i : nat) : nat :=
  match nth_error ss i with
  | Some s => 2 + match reason_lits (p_long p) (s_reason s) with Ret ls => length ls | _ => 0 end
  | None => 0
  end.
Definition sumw (av : list nat) : nat := fold_right (fun i k => k + w i) 0 av.
Lemma sumw_remove i av : In i av -> sumw (remove Nat.eq_dec i av) + w i <= sumw av.
Proof.
  assert (G : forall av, sumw (remove Nat.eq_dec i av) <= sumw av).
  { induction av0; simpl; auto. destruct (Nat.eq_dec i a); simpl; lia. }
  induction av as [|a r IH]; simpl; [tauto|]. intros [->|Hi].
  - destruct (Nat.eq_dec i i); [|congruence]. specialize (G r). lia.
  - destruct (Nat.eq_dec i a) as [->|]; simpl; [specialize (IH Hi)|specialize (IH Hi)]; lia.
Qed.
Lemma sumw_seq : sumw (seq 0 (length ss)) = fold_right (fun s k => k + 2 +
        match reason_lits (p_long p) (s_reason s) with Ret ls => length ls | _ => 0 end) 0 ss.
Proof.
  assert (G : forall suf pre, ss = pre ++ suf -> sumw (seq (length pre) (length suf)) = fold_right (fun s k => k + 2 +
        match reason_lits (p_long p) (s_reason s) with Ret ls => length ls | _ => 0 end) 0 suf).
  { induction suf as [|s r IH]; intros pre E; [reflexivity|]. cbn [length seq fold_right sumw].
    specialize (IH (pre ++ [s])). rewrite app_length in IH. cbn [length] in IH. rewrite Nat.add_1_r in IH.
    unfold sumw in IH. rewrite IH by (rewrite <- app_assoc; auto).
    unfold w. rewrite E, nth_error_app2, Nat.sub_diag by lia. cbn [nth_error]. lia. }
  apply (G ss []). auto.
Qed.

Definition confw (conf : list (nat * list N)) : nat := fold_right (fun e k => k + S (length (snd e))) 0 conf.
Lemma last_in (l : list nat) a : l <> [] -> In (last l a) l.
Proof.
  intro H. destruct (@exists_last _ l H) as (l' & x & ->). rewrite last_last. apply in_elt.
Qed.

Lemma iter_ok B K root : ~ kpos K root -> forall fuel m0 m conf av top r, conf = top :: r ->
  MI B K m -> mono root m0 m -> chain K None conf -> last (map fst conf) 0 = root ->
  (forall j, In j (map fst conf) -> j < B) ->
  (forall j, In j (map fst conf) -> j = root \/ uncached m j) ->
  (forall i, i < length ss -> uncached m i -> ~ In i (map fst conf) -> In i av) ->
  confw conf + sumw av <= fuel ->
  exists b m', redundant_iter fuel m p top (rev r) = Ret (b, m') /\ MI B K m' /\ mono root m0 m' /\
    (forall s, nth_error ss root = Some s -> if b then imp K (s_lit s) else ~ imp K (s_lit s)).
Proof.
  intro Hroot. induction fuel as [|fuel IH]; intros m0 m conf av [j ls] r -> HM HO HC HL HB HU HA HF.
  { simpl in HF. lia. }
  cbn [redundant_iter].
  pose proof HC as (s & rl & [Es Ls] & Rs & Hls & Hrl & _ & HC').
  assert (Hjb : j < B) by (apply HB; left; auto).
  assert (HND : NoDup (map fst ((j, ls) :: r))).
  { assert (G : forall c a, chain K a c -> NoDup (map fst c)).
    { clear. induction c as [|[k l] c IH]; intros a H; [constructor|]. destruct H as (s & rl & _ & _ & _ & _ & _ & B).
      cbn [map fst]. apply NoDup_cons_iff. split; [|eapply IH; eauto]. intro G. pose proof (chain_above _ _ _ B _ G). lia. }
    eapply G; eauto. }
  assert (Hstep : forall k, In k (map fst ((j, ls) :: r)) -> exists s, nth_error ss k = Some s).
  { assert (G : forall c a, chain K a c -> forall k, In k (map fst c) -> exists s, nth_error ss k = Some s).
    { clear. induction c as [|[k l] c IH]; intros a H k' Hk; [contradiction|]. destruct H as (s & rl & [E _] & _ & _ & _ & _ & G).
      destruct Hk as [<-|Hk]; [eauto|]. eapply IH; eauto. }
    eapply G; eauto. }
  assert (Hnk : forall k, In k (map fst ((j, ls) :: r)) -> ~ kpos K k).
  { intros k Hk. destruct (HU k Hk) as [->|U]; auto. eapply uncached_kpos; eauto. }
  assert (Hpoison : forall m1, MI B K m1 -> mono root m0 m1 -> (forall k, In k (map fst ((j, ls) :: r)) -> k = root \/ uncached m1 k) ->
    ~ imp K (s_lit s) ->
    exists b m', (let* m2 := cache_set m1 j false in let* m3 := poison_stack m2 (rev r) in Ret (false, m3)) = Ret (b, m') /\
      MI B K m' /\ mono root m0 m' /\ (forall s, nth_error ss root = Some s -> if b then imp K (s_lit s) else ~ imp K (s_lit s))).
  { intros m1 H1 O1 U1 Hns.
    assert (Pm : Permutation (map fst (rev r)) (map fst r)) by (apply Permutation_map, Permutation_sym, Permutation_rev).
    assert (Hno : forall k sk, In k (map fst ((j, ls) :: r)) -> nth_error ss k = Some sk -> ~ imp K (s_lit sk)).
    { intros k sk [Hk|Hk] Ek; cbn [fst] in *; [subst k; congruence|]. eapply (chain_no_imp K r j s); eauto. intros q Hq. apply Hnk. right; auto. }
    destruct (poison_ok B K ((j, ls) :: rev r) m1 root H1) as (m3 & E3 & H3 & O3).
    - intros k Hk. apply Hstep. cbn [map fst In] in *. destruct Hk; auto. right. eapply Permutation_in; eauto.
    - intros k sk Hk. apply Hno. cbn [map fst In] in *. destruct Hk; auto. right. eapply Permutation_in; eauto.
    - intros k Hk. apply HB. cbn [map fst In] in *. destruct Hk; auto. right. eapply Permutation_in; eauto.
    - intros k Hk. apply U1. cbn [map fst In] in *. destruct Hk; auto. right. eapply Permutation_in; eauto.
    - cbn [map fst] in *. apply NoDup_cons_iff in HND as [N1 N2]. apply NoDup_cons_iff. split.
      + intro G. apply N1. eapply Permutation_in; eauto.
      + eapply Permutation_NoDup; [apply Permutation_sym; eauto|]; auto.
    - unfold poison_stack in E3. cbn [foldM fst] in E3. unfold poison_stack.
      destruct (cache_set m1 j false); cbn [bind] in *; try discriminate. rewrite E3. cbn [bind].
      exists false, m3. split; auto. split; auto. split; [eapply mono_trans; eauto|].
      intros s' Es'. apply (Hno root s'); auto. rewrite <- HL. destruct (map fst ((j, ls) :: r)) eqn:Q; [discriminate|]. rewrite <- Q. apply last_in. rewrite Q. discriminate. }
  destruct ls as [|l rest].
  - (* the top entry is finished *)
    assert (Hj : imp K (s_lit s)).
    { eapply imp_reason; eauto. intros x Hx. destruct (Hrl x Hx) as [Q|[[]|Q]]; auto.
      destruct (lpos ss (neg x)) eqn:Q2; [discriminate|]. exfalso. 
      assert (before ss j (neg x)) as (k & Ek & _); [|congruence]. eapply rsn_before; eauto. }
    destruct (cache_set_ok B K m j true s HM Es) as (m1 & E1 & H1 & M1 & C1); [auto|discriminate|].
    rewrite E1. cbn [bind].
    assert (O1 : mono root m0 m1).
    { eapply mono_trans; eauto. destruct (HU j (or_introl eq_refl)) as [->|U]; auto. eapply mono_weak; eauto. intro b. apply uncached_no; auto. }
    assert (U1 : forall k, k <> j -> uncached m1 k <-> uncached m k).
    { intros k Hk. unfold cache_set in E1. destruct (vset _ _ _) eqn:Ev; try discriminate. cbn [bind] in E1. inv E1.
      apply vset_ok in Ev as [_ ->]. unfold uncached. cbn [mi_cache]. rewrite upd_other; auto. tauto. }
    rewrite rev_involutive. destruct r as [|top' r'].
    + exists true, m1. split; auto. split; auto. split; auto. intros s' Es'. cbn [map fst last] in HL. subst root.
      replace s' with s by congruence. auto.
    + cbn [rev]. rewrite removelast_last_app.
      cbn [map fst] in HND. apply NoDup_cons_iff in HND as [N1 N2].
      apply (IH m0 m1 (top' :: r') av top' r'); auto.
      * eapply chain_pop; eauto.
      * intros k Hk. apply HB. right; auto.
      * intros k Hk. destruct (HU k (or_intror Hk)) as [->|U]; auto. right. apply U1; auto. intros ->. auto.
      * intros k Lk Uk Nk. assert (k <> j) by (intros ->; unfold uncached in Uk; congruence).
        apply HA; auto; [apply U1; auto|]. intros [G|G]; auto.
      * cbn [confw fold_right snd length] in HF |- *. unfold confw in *. lia.
  - (* the next literal *)
    destruct (rsn_before _ _ _ l Es Rs (Hls l (or_introl eq_refl))) as (i & Ei & Li).
    destruct (tr_index_neg n t HT l (lpos_In _ _ _ Ei)) as (i' & s' & A & B0 & C & D & _).
    assert (i = i') as -> by congruence. clear B0. rewrite A. cbn [bind].
    destruct (cached_ok B K m i' s' HM C) as (c & Ec & Hc). rewrite Ec. cbn [bind].
    assert (Hkj : ~ kpos K j) by (apply Hnk; left; auto).
    assert (Hdown : ~ imp K (s_lit s') -> ~ imp K (s_lit s)).
    { intro Q. eapply no_imp_reason; eauto; [apply Hls; left; auto|rewrite <- D; auto]. }
    assert (Hnext : forall m1, MI B K m1 -> imp K (s_lit s') -> mono root m0 m1 ->
       (forall k, k <> i' -> uncached m1 k <-> uncached m k) -> (uncached m1 i' -> uncached m i') -> 
       exists b m', redundant_iter fuel m1 p (j, rest) (rev r) = Ret (b, m') /\ MI B K m' /\ mono root m0 m' /\
       (forall s, nth_error ss root = Some s -> if b then imp K (s_lit s) else ~ imp K (s_lit s))).
    { intros m1 H1 Q1 O1 U1 U1'. apply (IH m0 m1 ((j, rest) :: r) av (j, rest) r); auto.
      - exists s, rl. do 2 (split; [auto|]). split; [intros; apply Hls; right; auto|]. split; [|split; [discriminate|auto]].
        intros x Hx. destruct (Hrl x Hx) as [Q|[[->|Q]|Q]]; auto. left. rewrite <- D. auto.
      - intros k Hk. destruct (HU k Hk) as [->|U]; auto. right. apply U1; auto. intros ->.
        destruct Hk as [G|G]; [cbn [fst] in G; lia|]. pose proof (chain_above _ _ _ HC' _ G). lia.
      - intros k Lk Uk Nk. apply HA; auto. destruct (Nat.eq_dec k i') as [->|]; auto. apply U1; auto.
      - unfold confw in *. cbn [fold_right snd length] in HF |- *. lia. }
    destruct c as [[]|].
    + apply Hnext; auto. tauto.
    + apply Hpoison; auto.
    + destruct Hc as (Uc & Rc & Lc). rewrite (proj2 (vget_ok _ _ _) C). cbn [bind].
      destruct (reason_lits_ok n es p i' s' HP C Rc) as (rl' & El' & Rl' & Bl'). rewrite El'. cbn [bind].
      destruct (lookahead_ok B K m HM rl' true) as (la & Ela & Hla & Hlf).
      { intros x Hx. eapply before_in; eauto. }
      rewrite Ela. cbn [bind].
      assert (Hni : ~ In i' (map fst ((j, l :: rest) :: r))).
      { intros [G|G]; [cbn [fst] in G; lia|]. pose proof (chain_above _ _ _ HC' _ G). lia. }
      destruct la as [[]|].
      * assert (Hi : imp K (s_lit s')) by (eapply imp_reason; eauto).
        destruct (cache_set_ok B K m i' true s' HM C) as (m1 & E1 & H1 & M1 & C1); [auto|discriminate|].
        rewrite E1. cbn [bind]. apply Hnext; auto.
        -- eapply mono_trans; eauto. eapply mono_weak; eauto. intro b. apply uncached_no; auto.
        -- intros k Hk. unfold cache_set in E1. destruct (vset _ _ _) eqn:Ev; try discriminate. cbn [bind] in E1. inv E1.
           apply vset_ok in Ev as [_ ->]. unfold uncached. cbn [mi_cache]. rewrite upd_other; auto. tauto.
      * rewrite <- (app_nil_l [(j, rest)]), app_nil_l. change (rev r ++ [(j, rest)]) with (rev ((j, rest) :: r)).
        apply (IH m0 m ((i', rl') :: (j, rest) :: r) (remove Nat.eq_dec i' av) (i', rl') ((j, rest) :: r)); auto.
        -- exists s', rl'. do 2 (split; [auto|]). split; auto. split; [auto|]. split; [discriminate|].
           exists s, rl. do 2 (split; [auto|]). split; [intros; apply Hls; right; auto|]. split; [|split; [|auto]].
           ++ intros x Hx. destruct (Hrl x Hx) as [Q|[[->|Q]|Q]]; auto. exfalso.
              assert (before ss j (neg x)) as (k & Ek & _); [|congruence]. eapply rsn_before; eauto.
           ++ intros x Q. inv Q. split; auto. exists l. split; auto. apply Hls. left; auto.
        -- intros k [Hk|Hk]; [cbn [fst] in Hk; lia|]. apply HB. auto.
        -- intros k Hk. destruct Hk as [<-|Hk]; auto.
        -- intros k Lk Uk Nk. apply in_in_remove; [|apply HA; auto].
           ++ intros ->. apply Nk. left; auto.
           ++ intro G. apply Nk. right. auto.
        -- assert (Hav : In i' av) by (apply HA; auto; apply nth_error_Some; congruence).
           pose proof (sumw_remove i' av Hav) as G. assert (w i' = 2 + length rl') as Ew by (unfold w; rewrite C, El'; auto).
           unfold confw in *. cbn [fold_right snd length] in HF |- *. lia.
      * assert (Hn' : ~ imp K (s_lit s')).
        { destruct (Hlf eq_refl) as (x & Hx & Nx). eapply no_imp_reason; eauto. eapply uncached_kpos; eauto. }
        destruct (cache_set_ok B K m i' false s' HM C) as (m1 & E1 & H1 & M1 & C1); [discriminate|intros _; split; auto; lia|].
        rewrite E1. cbn [bind]. apply Hpoison; auto.
        -- eapply mono_trans; eauto. eapply mono_weak; eauto. intro b. apply uncached_no; auto.
        -- intros k Hk. destruct (HU k Hk) as [->|U]; auto. right. 
           unfold cache_set in E1. destruct (vset _ _ _) eqn:Ev; try discriminate. cbn [bind] in E1. inv E1.
           apply vset_ok in Ev as [_ ->]. unfold uncached. cbn [mi_cache]. rewrite upd_other; auto. intros ->; auto.
Qed.

(** *** The recursive search *)
Lemma rec_ok B K : forall fuel depth, fuel + depth = rec_fuel -> 1 <= fuel -> forall m index s, MI B K m ->
  nth_error ss index = Some s -> s_reason s <> RDecision -> 1 <= s_level s -> ~ kpos K index -> index < B ->
  exists b m', redundant_rec fuel m index p depth = Ret (b, m') /\ MI B K m' /\ mono index m m' /\
    (if b then imp K (s_lit s) else ~ imp K (s_lit s)).
Proof.
  unfold rec_fuel, MAX_DEPTH.
  induction fuel as [|fuel IH]; intros depth Hfd Hf m index s HM Es Hr Hlev Hk Hib; [lia|].
  cbn [redundant_rec]. rewrite (proj2 (vget_ok _ _ _) Es). cbn [bind].
  destruct (reason_lits_ok n es p index s HP Es Hr) as (rl & El & Rl & Bl). rewrite El. cbn [bind].
  destruct (lookahead_ok B K m HM rl true) as (la & Ela & Hla & Hlf).
  { intros x Hx. eapply before_in; eauto. }
  rewrite Ela. cbn [bind]. destruct la as [[]|].
  - destruct (cache_set_ok B K m index true s HM Es) as (m1 & E1 & H1 & M1 & C1); [intros _; eapply imp_reason; eauto|discriminate|].
    rewrite E1. cbn [bind]. exists true, m1. split; auto. split; auto. split; auto. eapply imp_reason; eauto.
  - unfold MAX_DEPTH. destruct (Nat.ltb_spec 20 depth) as [G|G].
    + unfold iter_fuel. rewrite <- sumw_seq.
      destruct (iter_ok B K index Hk (S (length rl + sumw (seq 0 (length ss)))) m m [(index, rl)] (seq 0 (length ss)) (index, rl) [] eq_refl HM (mono_refl _ _))
        as (b & m' & E1 & H1 & M1 & C1).
      * exists s, rl. split; auto. split; auto. split; auto. split; auto. split; [discriminate|exact I].
      * reflexivity.
      * intros j [<-|[]]. auto.
      * intros j [<-|[]]. auto.
      * intros i Li _ _. apply in_seq. lia.
      * unfold confw. cbn [fold_right snd]. lia.
      * exists b, m'. split; [exact E1|]. split; auto. split; auto. apply (C1 s Es).
    + match goal with |- exists b m', ?f m rl = _ /\ _ =>
        assert (C : forall lits m1, (forall x, In x lits -> In x rl) -> (forall x, In x rl -> In x lits \/ imp K (neg x)) ->
          MI B K m1 -> mono index m m1 ->
          exists b m', f m1 lits = Ret (b, m') /\ MI B K m' /\ mono index m m' /\ (if b then imp K (s_lit s) else ~ imp K (s_lit s))) end.
      { induction lits as [|l rest IHl]; intros m1 Hs Hi HM1 HO1.
        - assert (Hq : imp K (s_lit s)). { eapply imp_reason; eauto. intros x Hx. destruct (Hi x Hx) as [[]|]; auto. }
          destruct (cache_set_ok B K m1 index true s HM1 Es) as (m2 & E2 & H2 & M2 & C2); [auto|discriminate|].
          rewrite E2. cbn [bind]. exists true, m2. split; auto. split; auto. split; [eapply mono_trans; eauto|auto].
        - destruct (Bl l (Hs l (or_introl eq_refl))) as (i & Ei & Li).
          destruct (tr_index_neg n t HT l (lpos_In _ _ _ Ei)) as (i' & s' & A & B0 & C & D & _).
          assert (i = i') as -> by congruence. clear B0. rewrite A. cbn [bind].
          destruct (cached_ok B K m1 i' s' HM1 C) as (c & Ec & Hc). rewrite Ec. cbn [bind].
          assert (Hfalse : forall m2, MI B K m2 -> mono index m m2 -> ~ imp K (s_lit s') ->
            exists b m', (let* m3 := cache_set m2 index false in Ret (false, m3)) = Ret (b, m') /\ MI B K m' /\ mono index m m' /\
            (if b then imp K (s_lit s) else ~ imp K (s_lit s))).
          { intros m2 H2 O2 Q2. assert (Hn : ~ imp K (s_lit s)).
            { eapply no_imp_reason; eauto; [apply Hs; left; auto|rewrite <- D; auto]. }
            destruct (cache_set_ok B K m2 index false s H2 Es) as (m3 & E3 & H3 & M3 & C3); [discriminate|auto|].
            rewrite E3. cbn [bind]. exists false, m3. split; auto. split; auto. split; [eapply mono_trans; eauto|auto]. }
          assert (Htrue : forall m2, MI B K m2 -> mono index m m2 -> imp K (s_lit s') -> 
             exists b m', (fix children (m : minim) (lits : list lit) {struct lits} : res (bool * minim) :=
              match lits with
              | [] =>
                  let* m1 := cache_set m index true in Ret (true, m1)
              | l :: rest =>
                  let* ri := trail_index t l in
                  let* c := redundant_cached m ri t in
                  let* (b, m1) :=
                    match c with
                    | Some b => Ret (b, m)
                    | None => redundant_rec fuel m ri p (depth + 1)
                    end in
                  if b then children m1 rest
                  else let* m2 := cache_set m1 index false in Ret (false, m2)
              end) m2 rest = Ret (b, m') /\ MI B K m' /\ mono index m m' /\
            (if b then imp K (s_lit s) else ~ imp K (s_lit s))).
          { intros m2 H2 O2 Q2. apply IHl; auto.
            - intros x Hx. apply Hs. right; auto.
            - intros x Hx. destruct (Hi x Hx) as [[->|Q]|Q]; auto. right. rewrite <- D. auto. }
          destruct c as [b|].
          + cbn [bind]. destruct b; [apply Htrue|apply Hfalse]; auto.
          + destruct Hc as (Uc & Rc & Lc).
            destruct (IH (depth + 1) ltac:(lia) ltac:(lia) m1 i' s' HM1 C Rc Lc) as (b & m2 & E2 & H2 & M2 & C2).
            { eapply uncached_kpos; eauto. }
            { lia. }
            rewrite E2. cbn [bind].
            assert (O2 : mono index m m2).
            { eapply mono_trans; [exact HO1|]. eapply mono_weak; [exact M2|]. intro b'. apply uncached_no; auto. }
            destruct b; [apply Htrue|apply Hfalse]; auto. }
      apply C; auto. apply mono_refl.
  - assert (Hn : ~ imp K (s_lit s)).
    { destruct (Hlf eq_refl) as (x & Hx & Nx). eapply no_imp_reason; eauto. }
    destruct (cache_set_ok B K m index false s HM Es) as (m1 & E1 & H1 & M1 & C1); [discriminate|auto|].
    rewrite E1. cbn [bind]. exists false, m1. split; auto.
Qed.

(** *** Retaining literals *)
Lemma lpos_neg_inj x y i : lpos ss (neg x) = Some i -> lpos ss (neg y) = Some i -> x = y.
Proof.
  intros A B. apply neg_inj. destruct (lpos_some _ _ _ A) as (s & E & <-). destruct (lpos_some _ _ _ B) as (s' & E' & <-). congruence.
Qed.

Lemma MI_add B K m fl i s l : MI B K m -> B <= S i -> nth_error ss i = Some s -> lpos ss (neg l) = Some i -> s_lit s = neg l ->
  1 <= s_level s -> (forall x, In x K -> In (neg x) (slits ss)) ->
  length fl = length (mi_first m) -> nth_error fl 0 = Some (Some 0) ->
  (forall lev f0, nth_error (mi_first m) lev = Some (Some f0) -> exists f, nth_error fl lev = Some (Some f) /\ f <= f0) ->
  (exists f, nth_error fl (s_level s) = Some (Some f) /\ f <= i) ->
  (forall lev f, 1 <= lev -> nth_error fl lev = Some (Some f) -> nth_error (mi_first m) lev = Some (Some f) \/ (f = i /\ lev = s_level s)) ->
  exists m', cache_set (mkMin fl (mi_cache m) (mi_clean m)) i true = Ret m' /\ MI (S i) (K ++ [l]) m'.
Proof.
  intros H LB E Ep El Llev HKs Lf F0 Fle Fi Hf. assert (Hi : i < length ss) by (apply nth_error_Some; congruence).
  pose proof (mi_l _ _ _ H) as HL. unfold cache_set. cbn [mi_cache mi_first mi_clean]. rewrite vset_lt by lia. cbn [bind].
  eexists. split; [reflexivity|].
  assert (Hsub : forall x, In x K -> In x (K ++ [l])) by (intros; apply in_or_app; auto).
  assert (Hn : forall j, nth_error (upd (mi_cache m) i (Some true)) j = if i =? j then Some (Some true) else nth_error (mi_cache m) j).
  { intro j. rewrite upd_nth. destruct (Nat.eqb_spec i j); auto. destruct (Nat.ltb_spec i (length (mi_cache m))); auto. lia. }
  constructor; cbn [mi_cache mi_first mi_clean].
  - rewrite upd_length. auto.
  - rewrite Lf. apply H.
  - intros j s' Ej Es'. rewrite Hn in Ej. destruct (Nat.eqb_spec i j) as [<-|N].
    + replace s' with s by congruence. rewrite El. apply imp_in. apply in_or_app. simpl; auto.
    + eapply imp_mono; eauto. eapply (mi_t _ _ _ H); eauto.
  - intros x Hx. apply in_app_or in Hx as [Hx|[<-|[]]].
    + destruct (mi_k _ _ _ H x Hx) as (j & A & B0). exists j. split; auto. rewrite Hn. destruct (i =? j); auto.
    + exists i. split; auto. rewrite Hn, Nat.eqb_refl. auto.
  - intros lev f L Ef. destruct (Hf lev f L Ef) as [G|[-> ->]].
    + destruct (mi_1 _ _ _ H lev f L G) as (x & A & B0). exists x. auto.
    + exists l. split; [apply in_or_app; simpl; auto|]. split; auto. rewrite <- El. apply (tr_slev n t HT _ _ E).
  - intros j b Ej. rewrite Hn in Ej. apply in_or_app. destruct (Nat.eqb_spec i j) as [->|N]; [right; left; auto|].
    left. eapply (mi_c _ _ _ H); eauto.
  - intros j Hj. rewrite upd_length. apply in_app_or in Hj as [Hj|[<-|[]]]; [eapply (mi_b _ _ _ H); eauto|lia].
  - intros j s' Ej Es' Hi'. rewrite Hn in Ej. destruct (Nat.eqb_spec i j) as [<-|N]; [discriminate|].
    apply (mi_n _ _ _ H j s' Ej Es'). apply (imp_restrict (K ++ [l]) K) with (i := j); auto.
    + intros x Hx. apply in_app_or in Hx as [Hx|[<-|[]]]; auto. rewrite <- El. apply in_slits; eauto.
    + intros x k Hx Ek Lk. apply in_app_or in Hx as [Hx|[<-|[]]]; auto. exfalso. pose proof (mi_bd _ _ _ H j Ej). assert (k = i) by congruence. lia.
  - intros j Ej. rewrite Hn in Ej. destruct (Nat.eqb_spec i j) as [Q|N]; [discriminate|]. pose proof (mi_bd _ _ _ H j Ej). lia.
  - auto.
  - intros x j Hx Ej. apply in_app_or in Hx as [Hx|[<-|[]]].
    + destruct (mi_ff _ _ _ H x j Hx Ej) as (f & Ef & Le). destruct (Fle _ _ Ef) as (f' & Ef' & Le'). exists f'. split; auto. lia.
    + assert (j = i) by congruence. subst j. rewrite (slev_nth _ _ _ E El). auto.
Qed.

Definition posn (l : N) : nat := match lpos ss (neg l) with Some i => i | None => 0 end.

Lemma retain_ok B K m l : MI B K m -> B <= posn l -> In (neg l) (slits ss) -> 1 <= slev ss (neg l) -> ~ In l K ->
  (forall x, In x K -> In (neg x) (slits ss)) ->
  exists m' K', retain_body p (m, K) l = Ret (m', K') /\ MI (S (posn l)) K' m' /\
    ((K' = K ++ [l] /\ ~ imp K (neg l)) \/ (K' = K /\ imp K (neg l) /\ K <> [])).
Proof.
  intros HM0 HBl Hin Hlev Hn HKs. destruct (tr_index_neg n t HT l Hin) as (i & s & A & B0 & C & D & E).
  assert (Epo : posn l = i) by (unfold posn; rewrite B0; auto). rewrite Epo in *. clear Epo.
  assert (HM : MI (S i) K m) by (eapply MI_bound; eauto). clear HM0.
  unfold retain_body. rewrite A. cbn [bind]. rewrite (proj2 (vget_ok _ _ _) C). cbn [bind].
  pose proof (tr_lev_le n t HT _ _ C) as Hle. pose proof (mi_f _ _ _ HM) as Hf.
  destruct (nth_error (mi_first m) (s_level s)) as [f|] eqn:Ef; [|apply nth_error_None in Ef; lia].
  rewrite (proj2 (vget_ok _ _ _) Ef). cbn [bind].
  assert (Hk : ~ kpos K i). { intros (x & Hx & Ex). apply Hn. rewrite (lpos_neg_inj _ _ _ B0 Ex). auto. }
  destruct (first_gt f i) eqn:G.
  - rewrite vset_lt by lia. cbn [bind].
    destruct (MI_add (S i) K m (upd (mi_first m) (s_level s) (Some i)) i s l HM (le_n _) C B0 D ltac:(lia) HKs) as (m' & E1 & H1).
    + apply upd_length.
    + rewrite upd_other by lia. apply (mi_0 _ _ _ HM).
    + intros lev f0 E0. rewrite upd_nth. destruct (Nat.eqb_spec (s_level s) lev) as [<-|]; [|eauto].
      rewrite Ef in E0. inv E0. cbn [first_gt] in G. apply Nat.ltb_lt in G. destruct (Nat.ltb_spec (s_level s) (length (mi_first m))); [|lia]. exists i. split; auto. lia.
    + exists i. split; auto. rewrite upd_nth, Nat.eqb_refl. destruct (Nat.ltb_spec (s_level s) (length (mi_first m))); [auto|lia].
    + intros lev f' L Ef'. rewrite upd_nth in Ef'. destruct (Nat.eqb_spec (s_level s) lev) as [<-|]; auto.
      destruct (_ <? _) in Ef'; inv Ef'. auto.
    + rewrite E1. cbn [bind]. exists m', (K ++ [l]). split; auto. split; auto. left. split; auto. rewrite <- D. eapply first_no_imp; eauto. lia.
  - destruct f as [f|]; [|discriminate]. cbn [first_gt] in G.
    destruct (mi_1 _ _ _ HM (s_level s) f) as (x & X1 & X2 & X3); [lia|auto|].
    assert (Hr : s_reason s <> RDecision).
    { intro R. destruct (lpos_some _ _ _ X2) as (s' & Es' & El'). pose proof (tr_slev n t HT _ _ Es') as Q. rewrite El' in Q.
      destruct (Nat.eq_dec f i) as [->|N]; [apply Hk; exists x; auto|].
      pose proof (dec_first n t i s f s' HT C R ltac:(lia) Es'). lia. }
    destruct (rec_ok (S i) K rec_fuel 0 ltac:(lia) ltac:(unfold rec_fuel; lia) m i s HM C Hr ltac:(lia) Hk ltac:(lia)) as (b & m1 & E1 & H1 & M1 & C1).
    rewrite E1. cbn [bind]. destruct b; cbn [negb].
    + destruct (cache_set_ok (S i) K m1 i true s H1 C) as (m2 & E2 & H2 & _); [auto|discriminate|].
      rewrite E2. cbn [bind]. exists m2, K. split; auto. split; auto. right. split; auto. split; [rewrite <- D; auto|].
      intros ->. contradiction.
    + destruct (MI_add (S i) K m1 (mi_first m1) i s l H1 (le_n _) C B0 D ltac:(lia) HKs) as (m' & E2 & H2); [auto|apply (mi_0 _ _ _ H1)|eauto| |auto|].
      { destruct M1 as [M1 _]. rewrite M1. exists f. split; auto. apply Nat.ltb_ge in G. auto. }
      destruct m1 as [f1 c1 l1]. cbn [mi_first mi_cache mi_clean] in E2.
      rewrite E2. cbn [bind]. exists m', (K ++ [l]). split; auto. split; auto. left. split; auto. rewrite <- D. auto.
Qed.

(** *** Sorting *)
Lemma insert_key_perm k l xs : Permutation (insert_key k l xs) ((k, l) :: xs).
Proof.
  induction xs as [|[k' l'] r IH]; simpl; auto. destruct (k <=? k'); auto.
  eapply perm_trans; [apply perm_skip; exact IH|]. apply perm_swap.
Qed.
Definition kle (a b : nat * N) : Prop := fst a <= fst b.
Lemma insert_key_sorted k l xs : StronglySorted kle xs -> StronglySorted kle (insert_key k l xs).
Proof.
  induction xs as [|[k' l'] r IH]; simpl; intro S; [repeat constructor|].
  inversion S as [|? ? S1 S2]; subst. destruct (Nat.leb_spec k k').
  - constructor; auto. constructor; auto. rewrite Forall_forall in *. intros y Hy. specialize (S2 y Hy). unfold kle in *. simpl in *. lia.
  - constructor; auto. rewrite Forall_forall in *. intros y Hy. apply (Permutation_in _ (insert_key_perm k l r)) in Hy.
    destruct Hy as [<-|Hy]; auto. unfold kle. simpl. lia.
Qed.

Lemma sort_ok cl : (forall x, In x cl -> In (neg x) (slits ss)) ->
  exists sorted, sort_by_trail t cl = Ret sorted /\ Permutation cl sorted /\ StronglySorted (fun a b => posn a <= posn b) sorted.
Proof.
  intro Hin. unfold sort_by_trail.
  assert (E : mapM (fun l => let* i := trail_index t l in Ret (i, l)) cl = Ret (map (fun l => (posn l, l)) cl)).
  { induction cl as [|l r IH]; [reflexivity|]. cbn [mapM map].
    destruct (tr_index_neg n t HT l (Hin l (or_introl eq_refl))) as (i & s & A & B & _).
    rewrite A. cbn [bind]. rewrite IH by (intros; apply Hin; right; auto). cbn [bind]. unfold posn at 2. rewrite B. auto. }
  rewrite E. cbn [bind]. eexists. split; [reflexivity|].
  set (ks := map (fun l => (posn l, l)) cl).
  assert (G : Permutation ks (fold_right (fun kl xs => insert_key (fst kl) (snd kl) xs) [] ks) /\
     StronglySorted kle (fold_right (fun kl xs => insert_key (fst kl) (snd kl) xs) [] ks)).
  { clearbody ks. clear. induction ks as [|[k l] r [IH1 IH2]]; simpl; [split; [auto|constructor]|]. split.
    - eapply perm_trans; [|apply Permutation_sym, insert_key_perm]. apply perm_skip; auto.
    - apply insert_key_sorted; auto. }
  destruct G as [G1 G2]. split.
  - apply (Permutation_map snd) in G1. unfold ks in G1 at 1. rewrite map_map in G1. cbn [snd] in G1. rewrite map_id in G1. auto.
  - set (r := fold_right _ _ _) in *. assert (Hr : forall y, In y r -> fst y = posn (snd y)).
    { intros y Hy. apply (Permutation_in _ (Permutation_sym G1)) in Hy. unfold ks in Hy. apply in_map_iff in Hy as (l & <- & _). auto. }
    clearbody r. clear - G2 Hr. induction G2 as [|a r S IH F]; simpl; constructor.
    + apply IH. intros; apply Hr; simpl; auto.
    + rewrite Forall_forall in *. intros y Hy. apply in_map_iff in Hy as (b & <- & Hb). specialize (F b Hb). unfold kle in F.
      rewrite (Hr a), (Hr b) in F by (simpl; auto). auto.
Qed.

(** *** The whole minimization *)
(** No kept literal follows from those kept before it. *)
Definition irred (K : list N) : Prop := forall pre x post, K = pre ++ x :: post -> ~ imp pre (neg x).
Lemma irred_snoc K l : irred K -> ~ imp K (neg l) -> irred (K ++ [l]).
Proof.
  intros H Hl pre x post E. destruct post as [|y r] using rev_ind.
  - apply app_inj_tail in E as [-> ->]. auto.
  - clear IHr. rewrite app_comm_cons, app_assoc in E. apply app_inj_tail in E as [E _]. eapply H; eauto.
Qed.

Lemma retain_all der : NoDup der -> (forall x, In x der -> In (neg x) (slits ss) /\ 1 <= slev ss (neg x)) ->
  StronglySorted (fun a b => posn a <= posn b) der -> forall m, MI 0 [] m ->
  exists m' B K rem, foldM (retain_body p) der (m, []) = Ret (m', K) /\ MI B K m' /\ Permutation der (K ++ rem) /\
    (der <> [] -> K <> []) /\ StronglySorted (fun a b => posn a <= posn b) K /\ (forall x, In x der -> imp K (neg x)) /\ irred K.
Proof.
  intros ND Hin HS m HM.
  assert (G : forall rest done m B K rem, der = done ++ rest -> MI B K m -> (forall y, In y rest -> B <= posn y) ->
     Permutation done (K ++ rem) -> (done <> [] -> K <> []) ->
     StronglySorted (fun a b => posn a <= posn b) K -> (forall x, In x done -> imp K (neg x)) -> irred K ->
     exists m' B' K' rem', foldM (retain_body p) rest (m, K) = Ret (m', K') /\ MI B' K' m' /\ Permutation der (K' ++ rem') /\
    (der <> [] -> K' <> []) /\ StronglySorted (fun a b => posn a <= posn b) K' /\ (forall x, In x der -> imp K' (neg x)) /\ irred K').
  { induction rest as [|l rest IH]; intros done m1 B K rem E H1 HB HP1 HK1 HS1 HI1 HR1.
    - rewrite app_nil_r in E. subst done. exists m1, B, K, rem. auto 10.
    - assert (Hl : In l der) by (subst der; apply in_elt). destruct (Hin l Hl) as [I1 I2].
      assert (Hnd : ~ In l done). { rewrite E in ND. apply NoDup_remove_2 in ND. intro Q. apply ND. apply in_or_app. auto. }
      assert (HKs : forall x, In x K -> In (neg x) (slits ss)).
      { intros x Hx. apply Hin. rewrite E. apply in_or_app. left. eapply Permutation_in; [apply Permutation_sym; exact HP1|]. apply in_or_app. auto. }
      assert (HB' : forall y, In y rest -> S (posn l) <= posn y).
      { intros y Hy. assert (Hyd : In y der) by (rewrite E; apply in_or_app; right; right; auto).
        assert (Le : posn l <= posn y).
        { clear - HS E Hy. rewrite E in HS. clear E. induction done as [|z r IH]; simpl in HS; inversion HS as [|? ? S1 S2]; subst; auto.
          rewrite Forall_forall in S2. auto. }
        assert (posn l <> posn y); [|lia]. intro Q. destruct (Hin y Hyd) as [Y1 _].
        destruct (lpos_in _ _ I1) as [i Ei]. destruct (lpos_in _ _ Y1) as [j Ej]. unfold posn in Q. rewrite Ei, Ej in Q. subst j.
        assert (l = y) by (eapply lpos_neg_inj; eauto). subst y. rewrite E in ND. apply NoDup_remove_2 in ND. apply ND. apply in_or_app; auto. }
      destruct (retain_ok B K m1 l H1 (HB l (or_introl eq_refl)) I1 I2) as (m2 & K2 & E2 & H2 & HK2); [|auto|].
      { intro Q. apply Hnd. eapply Permutation_in; [apply Permutation_sym; exact HP1|]. apply in_or_app. auto. }
      cbn [foldM]. rewrite E2. cbn [bind]. destruct HK2 as [[-> Q0]|(-> & Q1 & Q2)].
      + apply (IH (done ++ [l]) m2 (S (posn l)) (K ++ [l]) rem); auto.
        * rewrite <- app_assoc. auto.
        * rewrite <- app_assoc. simpl. eapply perm_trans; [apply Permutation_app_tail; exact HP1|].
          rewrite <- app_assoc. apply Permutation_app_head. apply Permutation_sym, Permutation_cons_append.
        * intros _ Q. apply app_eq_nil in Q as [_ Q]. discriminate.
        * assert (Hle : forall y, In y K -> posn y <= posn l).
          { intros y Hy. assert (Hd' : In y done) by (eapply Permutation_in; [apply Permutation_sym; exact HP1|]; apply in_or_app; auto).
            clear - Hd' HS E. rewrite E in HS. clear E der. induction done as [|z done IH]; [contradiction|].
            simpl in HS. inversion HS as [|? ? S1 S2]; subst. destruct Hd' as [->|Hd']; [|apply IH; auto].
            rewrite Forall_forall in S2. apply S2. apply in_elt. }
          clear - HS1 Hle. induction HS1 as [|z r S IH F]; simpl; [repeat constructor|].
          constructor; [apply IH; intros; apply Hle; simpl; auto|]. apply Forall_app. split; auto. constructor; auto. apply Hle; simpl; auto.
        * intros x Hx. apply in_app_or in Hx as [Hx|[<-|[]]].
          -- eapply imp_mono; [|apply HI1; auto]. intros; apply in_or_app; auto.
          -- apply imp_in. apply in_or_app. simpl. auto.
        * apply irred_snoc; auto.
      + apply (IH (done ++ [l]) m2 (S (posn l)) K (l :: rem)); auto.
        * rewrite <- app_assoc. auto.
        * eapply perm_trans; [apply Permutation_app_tail; exact HP1|]. rewrite <- app_assoc. apply Permutation_app_head.
          apply Permutation_sym, Permutation_cons_append.
        * intros x Hx. apply in_app_or in Hx as [Hx|[<-|[]]]; auto. }
  apply (G der [] m 0 [] []); auto; [intros; lia|constructor|intros x []|].
  intros pre x post Q. destruct pre; discriminate.
Qed.

Lemma clean_ok ix : forall c, (forall i, In i ix -> i < length c) ->
  exists c', foldM (fun c i => vset c i (@None bool)) ix c = Ret c' /\
    forall i b, nth_error c' i = Some (Some b) -> nth_error c i = Some (Some b) /\ ~ In i ix.
Proof.
  induction ix as [|i r IH]; intros c H.
  - exists c. split; [reflexivity|]. intros j b E. split; auto.
  - cbn [foldM]. rewrite vset_lt by (apply H; simpl; auto). cbn [bind].
    destruct (IH (upd c i None)) as (c' & E1 & E2). { intros j Hj. rewrite upd_length. apply H. simpl; auto. }
    exists c'. split; auto. intros j b Ej. destruct (E2 j b Ej) as [A B]. rewrite upd_nth in A.
    destruct (Nat.eqb_spec i j) as [->|N].
    + destruct (_ <? _); discriminate.
    + split; auto. intros [Q|Q]; auto.
Qed.

Lemma first_ok ls : (forall x, In x ls -> In (neg x) (slits ss)) -> forall fl, d < length fl ->
  exists fl', foldM (fun fl l => let* s := step_for_var t l in vset fl (s_level s) (@None nat)) ls fl = Ret fl' /\
    forall i f, nth_error fl' i = Some (Some f) -> nth_error fl i = Some (Some f) /\ forall x, In x ls -> slev ss (neg x) <> i.
Proof.
  induction ls as [|l r IH]; intros Hin fl HL.
  - exists fl. split; [reflexivity|]. intros j b E. split; auto.
  - cbn [foldM]. destruct (tr_step_neg n t HT l (Hin l (or_introl eq_refl))) as (s & A & B & C & D). rewrite A. cbn [bind].
    pose proof (tr_slev_le n t HT (neg l)). rewrite vset_lt by lia. cbn [bind].
    destruct (IH (fun x Hx => Hin x (or_intror Hx)) (upd fl (s_level s) None)) as (fl' & E1 & E2). { rewrite upd_length. auto. }
    exists fl'. split; auto. intros j f Ej. destruct (E2 j f Ej) as [A1 B1]. rewrite upd_nth in A1.
    destruct (Nat.eqb_spec (s_level s) j) as [<-|N].
    + destruct (_ <? _); discriminate.
    + split; auto. intros x [<-|Q]; auto. congruence.
Qed.

Lemma minimize_ok m der u : MC m -> der <> [] -> NoDup der ->
  (forall x, In x der -> In (neg x) (slits ss) /\ 1 <= slev ss (neg x) < d) ->
  In u (slits ss) -> slev ss u = d ->
  exists level b kept rem m', minimize m (der ++ [neg u]) p = Ret (level, neg u :: b :: kept, m') /\ MC m' /\
    Permutation der (b :: kept ++ rem) /\ level = slev ss (neg b) /\ 1 <= level < d /\
    (forall x, In x kept -> slev ss (neg x) <= level) /\
    (forall x, In x der -> imp (b :: kept) (neg x)) /\
    (forall x, In x (neg u :: b :: kept) -> ~ imp (remove N.eq_dec x (neg u :: b :: kept)) (neg x)).
Proof.
  intros (M1 & M2 & M3) Hne ND Hder Hu Hlu. unfold minimize. cbv zeta.
  set (first1 := if _ <=? _ then _ else _).
  assert (L1 : d < length first1 /\ forall i f, 1 <= i -> nth_error first1 i <> Some (Some f)).
  { unfold first1. destruct (Nat.leb_spec (length (mi_first m)) d) as [G|G]; [|split; auto].
    split; [rewrite vresize_length; lia|]. intros i f Li E. rewrite vresize_grow in E by lia.
    destruct (Nat.lt_ge_cases i (length (mi_first m))) as [Q|Q].
    - rewrite nth_error_app1 in E by auto. eapply M3; eauto.
    - rewrite nth_error_app2 in E by auto. apply nth_error_In, repeat_spec in E. discriminate. }
  destruct L1 as [L1 L2]. rewrite vset_lt by lia. cbn [bind]. clearbody first1.
  set (cache1 := if _ <=? _ then _ else _).
  assert (L3 : length ss <= length cache1 /\ forall i b, nth_error cache1 i <> Some (Some b)).
  { unfold cache1. destruct (Nat.leb_spec (length (mi_cache m)) (length ss)) as [G|G]; [|split; auto; lia].
    split; [rewrite vresize_length; lia|]. intros i f E. rewrite vresize_grow in E by lia.
    destruct (Nat.lt_ge_cases i (length (mi_cache m))) as [Q|Q].
    - rewrite nth_error_app1 in E by auto. eapply M2; eauto.
    - rewrite nth_error_app2 in E by auto. apply nth_error_In, repeat_spec in E. discriminate. }
  destruct L3 as [L3 L4]. clearbody cache1.
  assert (Hall : forall x, In x (der ++ [neg u]) -> In (neg x) (slits ss)).
  { intros x Hx. apply in_app_or in Hx as [Hx|[<-|[]]]; [apply Hder; auto|rewrite neg_neg; auto]. }
  destruct (sort_ok _ Hall) as (sorted & Es & Ps & Ss). rewrite Es. cbn [bind].
  (* the literal of the conflict level is last *)
  assert (Hpos : forall x, In x der -> posn x < posn (neg u)).
  { intros x Hx. destruct (Hder x Hx) as [I1 I2]. unfold posn. rewrite neg_neg.
    destruct (lpos_in _ _ I1) as [i Ei]. destruct (lpos_in _ _ Hu) as [j Ej]. rewrite Ei, Ej.
    destruct (Nat.lt_ge_cases i j) as [G|G]; auto. exfalso.
    destruct (lpos_some _ _ _ Ei) as (si & Xi & Yi). destruct (lpos_some _ _ _ Ej) as (sj & Xj & Yj).
    pose proof (tr_mono n t HT j i sj si G Xj Xi) as Q. pose proof (tr_slev n t HT _ _ Xi) as Q1. pose proof (tr_slev n t HT _ _ Xj) as Q2.
    rewrite Yi in Q1. rewrite Yj in Q2. lia. }
  assert (Hs : exists der', sorted = der' ++ [neg u] /\ Permutation der der').
  { destruct (@exists_last _ sorted) as (der' & z & ->).
    { intros ->. apply Permutation_sym, Permutation_nil in Ps. apply app_eq_nil in Ps as [_ Ps]. discriminate. }
    assert (z = neg u) as ->.
    { assert (Hz : In z (der ++ [neg u])) by (eapply Permutation_in; [apply Permutation_sym; exact Ps|apply in_elt]).
      apply in_app_or in Hz as [Hz|[Hz|[]]]; auto. exfalso. specialize (Hpos z Hz).
      assert (Hm : In (neg u) (der' ++ [z])) by (eapply Permutation_in; [exact Ps|apply in_elt]).
      apply in_app_or in Hm as [Hm|[Hm|[]]]; [|subst; lia].
      assert (posn (neg u) <= posn z); [|lia]. clear - Ss Hm. induction der' as [|y r IH]; [contradiction|].
      simpl in Ss. inversion Ss as [|? ? S1 S2]; subst. destruct Hm as [->|Hm]; auto.
      rewrite Forall_forall in S2. apply S2. apply in_elt. }
    exists der'. split; auto. eapply Permutation_app_inv_r; eauto. }
  destruct Hs as (der' & -> & Pd). rewrite rev_app_distr. cbn [rev app]. rewrite removelast_last_app.
  destruct (retain_all der') with (m := mkMin (upd first1 0 (Some 0)) cache1 (mi_clean m)) as (m1 & BB & K & rem & E1 & H1 & HPm & HK & HS & HI & HR).
  { eapply Permutation_NoDup; eauto. }
  { intros x Hx. apply (Permutation_in _ (Permutation_sym Pd)) in Hx. destruct (Hder x Hx). split; auto. lia. }
  { clear - Ss. induction der' as [|y r IH]; [constructor|]. simpl in Ss. inversion Ss as [|? ? S1 S2]; subst. constructor; auto.
    apply Forall_app in S2. apply S2. }
  { constructor; cbn [mi_cache mi_first mi_clean]; auto.
    - rewrite upd_length. auto.
    - intros i s E. exfalso. eapply L4; eauto.
    - intros x [].
    - intros lev f L E. rewrite upd_other in E by lia. exfalso. eapply L2; eauto.
    - intros i b E. exfalso. eapply L4; eauto.
    - rewrite M1. intros i [].
    - intros i s E. exfalso. eapply L4; eauto.
    - intros i E. exfalso. eapply L4; eauto.
    - rewrite upd_nth, Nat.eqb_refl. destruct (Nat.ltb_spec 0 (length first1)); [auto|lia].
    - intros x j []. }
  rewrite E1. cbn [bind].
  destruct (clean_ok (mi_clean m1) (mi_cache m1) (mi_b _ _ _ H1)) as (c' & E2 & C2). rewrite E2. cbn [bind].
  assert (HKd : forall x, In x K -> In x der).
  { intros x Hx. eapply Permutation_in; [apply Permutation_sym; exact Pd|]. eapply Permutation_in; [apply Permutation_sym; exact HPm|]. apply in_or_app; auto. }
  destruct (first_ok (K ++ [neg u])) with (fl := mi_first m1) as (fl' & E3 & C3).
  { intros x Hx. apply Hall. apply in_app_or in Hx as [Hx|Hx]; apply in_or_app; auto. }
  { apply (mi_f _ _ _ H1). }
  rewrite E3. cbn [bind]. rewrite rev_app_distr. cbn [rev app].
  destruct (@exists_last _ K) as (K0 & b & ->).
  { apply HK. intros ->. apply Permutation_sym, Permutation_nil in Pd. auto. }
  rewrite rev_app_distr. cbn [rev app vget nth_error bind].
  assert (Hb : In b der) by (apply HKd; apply in_elt). destruct (Hder b Hb) as [B1 B2].
  destruct (tr_step_neg n t HT b B1) as (sb & A & B & C & D). unfold vget. cbn [nth_error bind]. rewrite A. cbn [bind].
  exists (s_level sb), b, (rev K0), rem. eexists. split; [reflexivity|].
  split; [|split; [|split; [|split; [|split; [|split]]]]].
  - split; [reflexivity|]. cbn [mi_cache mi_first]. split.
    + intros i bb E. destruct (C2 i bb E) as [X Y]. apply Y. eapply (mi_c _ _ _ H1); eauto.
    + intros i f L E. destruct (C3 i f E) as [X Y]. destruct (mi_1 _ _ _ H1 i f L X) as (x & Z1 & Z2 & Z3).
      apply (Y x); auto. apply in_or_app; auto.
  - eapply perm_trans; [exact Pd|]. eapply perm_trans; [exact HPm|].
    rewrite <- app_assoc. simpl. eapply perm_trans; [apply Permutation_sym, Permutation_middle|]. apply perm_skip.
    apply Permutation_app_tail. apply Permutation_rev.
  - auto.
  - lia.
  - intros x Hx. apply in_rev in Hx. rewrite C.
    assert (Hxd : In x der) by (apply HKd; apply in_or_app; auto). destruct (Hder x Hxd) as [X1 X2].
    assert (Hle : posn x <= posn b).
    { clear - HS Hx. induction K0 as [|y r IH]; [contradiction|]. simpl in HS. inversion HS as [|? ? S1 S2]; subst.
      destruct Hx as [->|Hx]; auto. rewrite Forall_forall in S2. apply S2. apply in_elt. }
    unfold posn in Hle. destruct (lpos_in _ _ X1) as [i Ei]. destruct (lpos_in _ _ B1) as [j Ej]. rewrite Ei, Ej in Hle.
    destruct (lpos_some _ _ _ Ei) as (si & Xi & Yi). destruct (lpos_some _ _ _ Ej) as (sj & Xj & Yj).
    pose proof (tr_mono n t HT i j si sj Hle Xi Xj) as Q. pose proof (tr_slev n t HT _ _ Xi) as Q1. pose proof (tr_slev n t HT _ _ Xj) as Q2.
    rewrite Yi in Q1. rewrite Yj in Q2. lia.
  - intros x Hx. eapply imp_mono; [|apply HI; eapply Permutation_in; eauto].
    intros y Hy. apply in_app_or in Hy as [Hy|[<-|[]]]; [right; apply -> in_rev; auto|left; auto].
  - assert (Hcl : forall y, In y (neg u :: b :: rev K0) -> y = neg u \/ In y (K0 ++ [b])).
    { intros y [<-|[<-|Hy]]; auto; right; apply in_or_app; simpl; auto. left. apply in_rev; auto. }
    intros x Hx. set (rest := remove N.eq_dec x _).
    assert (Hr : forall y, In y rest -> y <> x /\ (y = neg u \/ In y (K0 ++ [b]))).
    { intros y Hy. apply in_remove in Hy as [Hy1 Hy2]. auto. }
    destruct (Hcl x Hx) as [->|HxK].
    + (* the literal of the conflict level *)
      rewrite neg_neg. destruct (lpos_in _ _ Hu) as [j Ej]. destruct (lpos_some _ _ _ Ej) as (sj & Xj & Yj).
      pose proof (slev_nth _ _ _ Xj Yj) as Lj. rewrite <- Yj. apply (no_imp_first rest j sj Xj); [lia|].
      intros y k Hy Ly _. exfalso. destruct (Hr y Hy) as [N1 [N2|N2]]; auto. destruct (Hder y (HKd y N2)). lia.
    + destruct (Hder x (HKd x HxK)) as [X1 X2]. destruct (in_split _ _ HxK) as (pre & post & EK).
      destruct (lpos_in _ _ X1) as [i Ei]. destruct (lpos_some _ _ _ Ei) as (si & Xi & Yi).
      intro G. apply (HR pre x post EK). rewrite <- Yi in G |- *. revert G. apply imp_restrict with (i := i); auto.
      * intros y Hy. destruct (Hr y Hy) as [_ [->|Q]]; [rewrite neg_neg; auto|apply Hder, HKd; auto].
      * intros y k Hy Ek Lk. assert (Py : posn y = k) by (unfold posn; rewrite Ek; auto). assert (Px : posn x = i) by (unfold posn; rewrite Ei; auto).
        destruct (Hr y Hy) as [Nyx [->|Q]]; [pose proof (Hpos x (HKd x HxK)); lia|].
        rewrite EK in Q. apply in_app_or in Q as [Q|[Q|Q]]; [auto|congruence|]. exfalso. apply Nyx.
        assert (posn x <= posn y).
        { clear - HS EK Q. rewrite EK in HS. clear EK. induction pre as [|z r IH]; simpl in HS; inversion HS as [|? ? S1 S2]; subst; auto.
          rewrite Forall_forall in S2. auto. }
        assert (Eki : k = i) by lia. clear Py. subst k. apply (lpos_neg_inj y x i Ek Ei).
Qed.
End Min.
