(** compute_glue, clause bumping and variable bumping. *)
From Coq Require Import NArith List Bool Arith Lia Permutation Sorted ZifyN ZifyNat ZifyBool Floats.SpecFloat.
From Verif Require Import Model_Base Model_Lit Model_PartialAssignment Model_Header Model_Arena Model_Prop
  Model_Heap Model_Vsids Model_Analysis Spec Drivers_Arena Drivers_Heap Proof_Base Proof_PA Proof_Lit Proof_Header Proof_Arena
  Proof_ArenaHist Proof_Heap Proof_Long Proof_Trail Proof_Backtrack Proof_Inv Proof_Propagate Proof_PropOps.
Import ListNotations.

(** ** Flag buffers *)
Definition allf (l : list bool) : Prop := forall i, nth_error l i = Some true -> False.

Lemma allf_repeat k : allf (repeat false k).
Proof. intros i H. apply nth_error_In, repeat_spec in H. discriminate. Qed.
Lemma allf_vresize l k : allf l -> allf (vresize l k false).
Proof.
  intros H i E. unfold vresize in E. destruct (Nat.lt_ge_cases i (length (firstn k l))) as [G|G].
  - rewrite nth_error_app1 in E by auto. rewrite nth_error_firstn in E. destruct (i <? k); [|discriminate]. eapply H; eauto.
  - rewrite nth_error_app2 in E by auto. eapply allf_repeat; eauto.
Qed.
Lemma allf_nth l i : allf l -> i < length l -> nth_error l i = Some false.
Proof. intros H L. destruct (nth_error l i) as [[]|] eqn:E; auto; [exfalso; eapply H; eauto|]. apply nth_error_None in E. lia. Qed.
Lemma allf_ext l l' : allf l -> allf l' -> length l = length l' -> l = l'.
Proof.
  revert l'; induction l as [|b r IH]; intros [|b' r'] H H' L; try discriminate; auto.
  f_equal.
  - destruct b, b'; auto; exfalso; [apply (H 0)|apply (H' 0)]; reflexivity.
  - apply IH; [intros i E; apply (H (S i)); auto|intros i E; apply (H' (S i)); auto|simpl in L; lia].
Qed.

(** ** Glue *)
(** The decision level at which the variable of [l] was assigned. *)
Definition vlev (ss : list step) (l : N) : nat := if inb l (slits ss) then slev ss l else slev ss (neg l).
Definition assigned (ss : list step) (l : N) : Prop := In l (slits ss) \/ In (neg l) (slits ss).

Lemma step_for_var_ok n t l : TR n t -> assigned (t_steps t) l ->
  exists s, step_for_var t l = Ret s /\ s_level s = vlev (t_steps t) l /\ In s (t_steps t).
Proof.
  intros H Ha. unfold vlev. destruct (inb_spec l (slits (t_steps t))) as [I|I].
  - destruct (tr_index n t H l I) as (i & s & A & B & C & D & E). exists s. unfold step_for_var. rewrite A. simpl.
    split; [apply vget_ok; auto|]. split; auto. eapply nth_error_In; eauto.
  - destruct Ha as [Ha|Ha]; [contradiction|]. destruct (tr_step_neg n t H l Ha) as (s & A & B & C & D). eauto.
Qed.

Lemma vlev_le n t l : TR n t -> vlev (t_steps t) l <= decision_level t.
Proof. intro H. unfold vlev. destruct (inb _ _); apply (tr_slev_le n); auto. Qed.

Definition levels (ss : list step) (ls : list N) : list nat := nodup Nat.eq_dec (map (vlev ss) ls).

Lemma glue_count_ok n t tmp ls : TR n t -> (forall l, In l ls -> assigned (t_steps t) l) ->
  decision_level t < length tmp -> allf tmp ->
  exists tmp', foldM (glue_count t) ls (0, tmp) = Ret (length (levels (t_steps t) ls), tmp') /\ length tmp' = length tmp /\
    forall i, nth_error tmp' i = Some true <-> In i (map (vlev (t_steps t)) ls).
Proof.
  intros H Ha HL HF.
  assert (G : forall rest done st, ls = done ++ rest -> 
     (let '(g, tm) := st in g = length (nodup Nat.eq_dec (map (vlev (t_steps t)) done)) /\ length tm = length tmp /\
       forall i, nth_error tm i = Some true <-> In i (map (vlev (t_steps t)) done)) ->
     exists tmp', foldM (glue_count t) rest st = Ret (length (levels (t_steps t) ls), tmp') /\ length tmp' = length tmp /\
       forall i, nth_error tmp' i = Some true <-> In i (map (vlev (t_steps t)) ls)).
  { induction rest as [|l rest IH]; intros done [g tm] E (Hg & Hl & Hi).
    - rewrite app_nil_r in E. subst. simpl. exists tm. auto.
    - cbn [foldM]. unfold glue_count at 1.
      destruct (step_for_var_ok n t l H) as (s & E1 & E2 & E3); [apply Ha; subst; apply in_elt|].
      rewrite E1. cbn [bind]. rewrite E2. pose proof (vlev_le n t l H) as V.
      rewrite (vget_nth false) by lia. cbn [bind]. rewrite vset_lt by lia. cbn [bind].
      apply (IH (done ++ [l])); [rewrite <- app_assoc; auto|].
      assert (Hn : nth (vlev (t_steps t) l) tm false = true <-> In (vlev (t_steps t) l) (map (vlev (t_steps t)) done)).
      { rewrite <- Hi. rewrite (nth_error_nth' tm false) by lia. split; congruence. }
      rewrite map_app. cbn [map]. split; [|split; [rewrite upd_length; auto|]].
      + subst g. clear - Hn. set (x := vlev (t_steps t) l) in *. set (ds := map (vlev (t_steps t)) done) in *.
        assert (P : length (nodup Nat.eq_dec (ds ++ [x])) = if in_dec Nat.eq_dec x ds then length (nodup Nat.eq_dec ds) else S (length (nodup Nat.eq_dec ds))).
        { clear. clearbody x ds. assert (Pm : Permutation (nodup Nat.eq_dec (ds ++ [x])) (nodup Nat.eq_dec (x :: ds))).
          { apply NoDup_Permutation; try apply NoDup_nodup. intro y. rewrite !nodup_In, in_app_iff. simpl. tauto. }
          rewrite (Permutation_length Pm). simpl. destruct (in_dec Nat.eq_dec x ds); reflexivity. }
        rewrite P. destruct (nth x tm false); destruct (in_dec Nat.eq_dec x ds); try lia; exfalso; intuition discriminate.
      + intro i. rewrite upd_nth, in_app_iff, <- Hi. cbn [In]. destruct (Nat.eqb_spec (vlev (t_steps t) l) i) as [E4|E4].
        * destruct (Nat.ltb_spec (vlev (t_steps t) l) (length tm)); [|lia]. split; auto.
        * split; [auto|]. intros [G|[G|[]]]; auto. congruence. }
  apply (G ls [] (0, tmp)); auto. split; auto. split; auto. intro i. split; [intro E; exfalso; eapply HF; eauto|intros []].
Qed.

Lemma glue_reset_ok n t ls : TR n t -> (forall l, In l ls -> assigned (t_steps t) l) -> forall tmp,
  decision_level t < length tmp ->
  (forall i, nth_error tmp i = Some true -> In i (map (vlev (t_steps t)) ls)) ->
  exists tmp', foldM (glue_reset t) ls tmp = Ret tmp' /\ length tmp' = length tmp /\ allf tmp'.
Proof.
  intros H Ha. induction ls as [|l r IH]; intros tmp HL HF.
  - exists tmp. split; [reflexivity|]. split; auto.
  - cbn [foldM]. unfold glue_reset at 1. destruct (step_for_var_ok n t l H) as (s & E1 & E2 & E3); [apply Ha; simpl; auto|].
    rewrite E1. cbn [bind]. rewrite E2. pose proof (vlev_le n t l H) as V. rewrite vset_lt by lia. cbn [bind].
    destruct (IH ltac:(intros; apply Ha; simpl; auto) (upd tmp (vlev (t_steps t) l) false)) as (tmp' & A & B & C).
    + rewrite upd_length. auto.
    + intros i E. rewrite upd_nth in E. destruct (Nat.eqb_spec (vlev (t_steps t) l) i) as [E4|E4].
      * destruct (_ <? _) in E; discriminate.
      * destruct (HF i E); [congruence|auto].
    + exists tmp'. rewrite upd_length in B. auto.
Qed.

Lemma compute_glue_ok n t ls tmp : TR n t -> (forall l, In l ls -> assigned (t_steps t) l) ->
  decision_level t < length tmp -> allf tmp ->
  compute_glue t ls tmp = Ret (length (levels (t_steps t) ls), tmp).
Proof.
  intros H Ha HL HF. unfold compute_glue. destruct (glue_count_ok n t tmp ls H Ha HL HF) as (t1 & E1 & L1 & F1).
  rewrite E1. cbn [bind]. destruct (glue_reset_ok n t ls H Ha t1) as (t2 & E2 & L2 & F2); [lia|intros i E; apply F1; auto|].
  rewrite E2. cbn [bind]. rewrite (allf_ext t2 tmp) by (auto; lia). reflexivity.
Qed.

(** ** bump_long_clause *)
Definition bumped (ss : list step) (h : long_header) (l : list N) : long_header :=
  let h1 := lh_set_glue h (N.of_nat (length (levels ss l))) in lh_set_used h1 (lh_used h1 + 1).

Lemma bump_ok n t a es c h l tmp : TR n t -> LR a es -> In (c, h, l) es -> (forall x, In x l -> assigned (t_steps t) x) ->
  decision_level t < length tmp -> allf tmp ->
  exists a', bump_long_clause t a c tmp = Ret (a', tmp) /\ LR a' (les_upd c (bumped (t_steps t) h l) l es) /\
    ESH es (les_upd c (bumped (t_steps t) h l) l es) /\ lh_protected (bumped (t_steps t) h l) = lh_protected h.
Proof.
  intros H HL Hi Ha HT HF. unfold bump_long_clause. rewrite (LR_lits _ _ HL _ _ _ Hi). cbn [bind].
  rewrite (LR_header _ _ HL _ _ _ Hi). cbn [bind]. rewrite (compute_glue_ok n) by auto. cbn [bind].
  destruct (LR_ok _ _ HL _ _ _ Hi) as (Hok & _).
  set (h' := lh_set_used _ _). change h' with (bumped (t_steps t) h l). clear h'.
  assert (Hok1 : lh_ok (lh_set_glue h (N.of_nat (length (levels (t_steps t) l))))) by (apply lh_ok_set_glue; auto).
  assert (Hok2 : lh_ok (bumped (t_steps t) h l)) by (apply lh_ok_set_used; auto).
  destruct (LR_set_header _ _ HL _ _ _ _ Hi Hok2) as (a' & E & HL'). rewrite E. cbn [bind].
  exists a'. split; auto. split; auto. split.
  - apply ESH_upd with (h := h); auto; [apply (LR_nodup _ _ HL)|].
    unfold bumped. cbv zeta. rewrite redundant_set_used, redundant_set_glue; auto.
  - unfold bumped. cbv zeta. rewrite protected_set_used, protected_set_glue; auto.
Qed.

(** ** Variable activities *)
Lemma vsids_rescale_ok v : HS (vs_activity v) ->
  HS (vs_activity (vsids_rescale v)) /\ length (h_values (vs_activity (vsids_rescale v))) = length (h_values (vs_activity v)) /\
  h_heap (vs_activity (vsids_rescale v)) = h_heap (vs_activity v).
Proof.
  intro H. unfold vsids_rescale. cbn [vs_activity]. destruct (apply_monotone_ok _ rescale_bits H) as (A & B & _).
  split; auto. split; [rewrite B, map_length; auto|reflexivity].
Qed.

Lemma cb_conflict_ok n cb l : CB n cb -> vidx l < n ->
  exists cb', cb_var_in_conflict cb l = Ret cb' /\ CB n cb' /\ (forall v, enq cb' v <-> enq cb v) /\ cb_phases cb' = cb_phases cb.
Proof.
  intros H Hv. unfold cb_var_in_conflict, bump_var.
  pose proof (cb_len _ _ H) as Hl. rewrite (vget_nth 0%N) by (rewrite Hl; auto). cbn [bind].
  destruct (increase_ok (vs_activity (cb_vsids cb)) (vidx l) (bump_bits (vs_increment (cb_vsids cb))) (cb_hs _ _ H)) as (h' & E & A & B & C & _).
  { rewrite Hl; auto. }
  rewrite E. cbn [bind]. set (v1 := mkVsids h' (vs_increment (cb_vsids cb))).
  destruct (vsids_rescale_ok v1 A) as (A' & B' & C').
  eexists. split; [reflexivity|]. unfold enq. destruct (SFltb _ _); cbn [cb_vsids cb_phases vs_activity].
  - split; [|split; [|auto]].
    + constructor; cbn [cb_vsids cb_phases]; auto; [|apply H]. rewrite B'. cbn [v1 vs_activity]. rewrite B, upd_length. auto.
    + intro v. rewrite C'. apply C.
  - split; [|split; [exact C|auto]].
    + constructor; cbn [cb_vsids cb_phases v1 vs_activity]; auto; [|apply H]. rewrite B, upd_length. auto.
Qed.

Lemma cb_analyzed_ok n cb : CB n cb ->
  CB n (cb_analyzed_conflict cb) /\ (forall v, enq (cb_analyzed_conflict cb) v <-> enq cb v) /\
  cb_phases (cb_analyzed_conflict cb) = cb_phases cb.
Proof.
  intro H. unfold cb_analyzed_conflict, vsids_decay. set (v1 := mkVsids (vs_activity (cb_vsids cb)) _).
  destruct (vsids_rescale_ok v1 (cb_hs _ _ H)) as (A & B & C). unfold enq.
  destruct (SFltb _ _); cbn [cb_vsids cb_phases].
  - split; [constructor; cbn [cb_vsids cb_phases]; auto; [rewrite B|]; apply H|]. split; auto. intro v. rewrite C. tauto.
  - split; [constructor; cbn [cb_vsids cb_phases v1 vs_activity]; apply H|]. split; auto. tauto.
Qed.
