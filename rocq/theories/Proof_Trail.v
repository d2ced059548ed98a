(** The trail and the value table. *)
From Coq Require Import NArith List Bool Arith Lia Sorted ZifyN ZifyNat ZifyBool.
From Verif Require Import Model_Base Model_Lit Model_PartialAssignment Model_Header Model_Arena Model_Prop
  Model_Heap Model_Vsids Model_Analysis Spec Drivers_Heap Proof_Base Proof_PA Proof_Lit Proof_Heap.
Import ListNotations.

Notation slits ss := (map s_lit ss).

Definition inb (l : N) (ls : list N) : bool := existsb (N.eqb l) ls.
Lemma inb_spec l ls : reflect (In l ls) (inb l ls).
Proof.
  apply iff_reflect. unfold inb. rewrite existsb_exists. split.
  - intro H. exists l. split; auto. apply N.eqb_refl.
  - intros (x & H & E). apply N.eqb_eq in E. subst. auto.
Qed.
Lemma inb_true l ls : inb l ls = true <-> In l ls.
Proof. destruct (inb_spec l ls); split; intro; auto; discriminate. Qed.
Lemma inb_false l ls : inb l ls = false <-> ~ In l ls.
Proof. destruct (inb_spec l ls); split; intro; auto; try discriminate; contradiction. Qed.

(** ** Values *)
Definition VR (n : nat) (vals : list N) (ls : list N) : Prop :=
  (forall l, In l ls -> vidx l < n) /\
  exists m, pa_rep vals m /\ length m = n /\
    forall l, vidx l < n -> (nth_error m (vidx l) = Some (Some (N.odd l)) <-> In l ls).

Lemma VR_range n vals ls l : VR n vals ls -> In l ls -> vidx l < n.
Proof. intros [H _]; auto. Qed.

Lemma VR_length n vals ls : VR n vals ls -> length vals = n.
Proof. intros (_ & m & [H _] & E & _). lia. Qed.

Lemma VR_val n vals ls l : VR n vals ls -> vidx l < n ->
  exists m o, pa_rep vals m /\ nth_error m (vidx l) = Some o /\
    (ob_eqb (olit l o) (Some true) = inb l ls) /\ (ob_eqb (olit l o) (Some false) = inb (neg l) ls).
Proof.
  intros (_ & m & Hr & Hl & Hm) Hv. destruct (nth_error m (vidx l)) as [o|] eqn:E.
  2:{ apply nth_error_None in E. lia. }
  exists m, o. do 2 (split; [auto|]).
  pose proof (Hm l Hv) as H1. pose proof (Hm (neg l) ltac:(rewrite vidx_neg; auto)) as H2.
  rewrite vidx_neg, E, neg_odd in *. split.
  - destruct (inb_spec l ls) as [I|I].
    + apply H1 in I. inv I. simpl. destruct (N.odd l); reflexivity.
    + destruct o as [[]|]; simpl; auto; destruct (N.odd l) eqn:O; simpl; auto; exfalso; apply I, H1; auto.
  - destruct (inb_spec (neg l) ls) as [I|I].
    + apply H2 in I. inv I. simpl. destruct (N.odd l); reflexivity.
    + destruct o as [[]|]; simpl; auto; destruct (N.odd l) eqn:O; simpl in *; auto; exfalso; apply I, H2; auto.
Qed.

Lemma VR_true n vals ls l : VR n vals ls -> vidx l < n -> pa_is_true vals l = Ret (inb l ls).
Proof. intros H Hv. destruct (VR_val _ _ _ _ H Hv) as (m & o & A & B & C & D). erewrite pa_is_true_rep; eauto. congruence. Qed.
Lemma VR_false n vals ls l : VR n vals ls -> vidx l < n -> pa_is_false vals l = Ret (inb (neg l) ls).
Proof. intros H Hv. destruct (VR_val _ _ _ _ H Hv) as (m & o & A & B & C & D). erewrite pa_is_false_rep; eauto. congruence. Qed.
Lemma VR_value n vals ls l : VR n vals ls -> vidx l < n ->
  pa_value vals l = Ret (if inb l ls then Some true else if inb (neg l) ls then Some false else None).
Proof.
  intros H Hv. destruct (VR_val _ _ _ _ H Hv) as (m & o & A & B & C & D). erewrite pa_value_rep; eauto.
  rewrite <- C, <- D. destruct (olit l o) as [[]|]; reflexivity.
Qed.
Lemma VR_assigned n vals ls l : VR n vals ls -> vidx l < n ->
  pa_is_assigned vals (lit_var l) = Ret (inb l ls || inb (neg l) ls).
Proof.
  intros H Hv. destruct (VR_val _ _ _ _ H Hv) as (m & o & A & B & C & D).
  erewrite pa_is_assigned_rep; eauto. f_equal. rewrite <- C, <- D. destruct o as [[]|]; simpl; auto; destruct (N.odd l); reflexivity.
Qed.

Lemma VR_cons n vals ls l : VR n vals ls -> In l ls -> In (neg l) ls -> False.
Proof.
  intros (R & m & Hr & Hl & Hm) H1 H2. pose proof (R _ H1) as Hv.
  apply (proj2 (Hm l Hv)) in H1. apply (proj2 (Hm (neg l) ltac:(rewrite vidx_neg; auto))) in H2.
  rewrite vidx_neg, H1, neg_odd in H2. inv H2. destruct (N.odd l); discriminate.
Qed.

Lemma VR_assign n vals ls l : VR n vals ls -> vidx l < n -> ~ In (neg l) ls ->
  exists v', pa_assign vals l = Ret v' /\ VR n v' (ls ++ [l]).
Proof.
  intros (R & m & Hr & Hl & Hm) Hv Hn. destruct (pa_assign_rep vals m l Hr ltac:(lia)) as (v' & E & Hr').
  exists v'. split; auto. split.
  - intros x Hx. apply in_app_or in Hx as [Hx|[<-|[]]]; auto.
  - eexists. split; [exact Hr'|]. split; [rewrite upd_length; auto|].
    intros x Hx. rewrite upd_nth, in_app_iff. destruct (Nat.eqb_spec (vidx l) (vidx x)) as [E1|E1].
    + rewrite (proj2 (Nat.ltb_lt _ _)) by lia. split.
      * intro G. inv G. right. left. apply lit_eq_var_odd; auto. apply vidx_eq; auto.
      * intros [G|[->|[]]]; auto. destruct (vidx_cases _ _ (eq_sym E1)) as [->|E2]; auto. subst x. contradiction.
    + rewrite Hm by auto. split; auto. intros [G|[->|[]]]; auto. congruence.
Qed.

Lemma VR_unassign n vals A l B : VR n vals (A ++ l :: B) -> ~ In l A -> ~ In l B ->
  exists v', pa_unassign vals (lit_var l) = Ret v' /\ VR n v' (A ++ B).
Proof.
  intros HV HA HB. pose proof HV as (R & m & Hr & Hl & Hm).
  pose proof (R l ltac:(apply in_elt)) as Hv.
  destruct (pa_unassign_rep vals m (lit_var l) Hr) as (v' & E & Hr').
  { rewrite lit_var_vidx. lia. }
  exists v'. split; auto. split.
  - intros x Hx. apply R. rewrite in_app_iff in *. simpl. tauto.
  - eexists. split; [exact Hr'|]. split; [rewrite upd_length; auto|].
    intros x Hx. rewrite lit_var_vidx, upd_nth. destruct (Nat.eqb_spec (vidx l) (vidx x)) as [E1|E1].
    + rewrite (proj2 (Nat.ltb_lt _ _)) by lia. split; [discriminate|]. intro G. exfalso.
      destruct (vidx_cases _ _ (eq_sym E1)) as [->|E2].
      * apply in_app_or in G as [G|G]; contradiction.
      * subst x. apply (VR_cons _ _ _ l HV); [apply in_elt|]. rewrite in_app_iff in *. simpl. tauto.
    + rewrite Hm by auto. rewrite !in_app_iff. simpl. split; [|tauto].
      intros [G|[->|G]]; auto. congruence.
Qed.

Lemma VR_empty : VR 0 [] [].
Proof. split; [intros l []|]. exists []. split; [split; auto; intros [|]; discriminate|]. split; auto. intros; lia. Qed.

Lemma VR_resize n n' vals ls : VR n vals ls -> n <= n' -> VR n' (pa_resize vals n') ls.
Proof.
  intros (R & m & Hr & Hl & Hm) L. split; [intros l Hi; specialize (R _ Hi); lia|].
  exists (vresize m n' None). split; [apply pa_resize_rep; auto|]. split; [apply vresize_length|].
  intros l Hv. rewrite vresize_nth by auto. destruct (Nat.lt_ge_cases (vidx l) n) as [G|G].
  - rewrite <- Hm by auto. destruct (nth_error m (vidx l)) eqn:E; [reflexivity|].
    apply nth_error_None in E. lia.
  - rewrite (proj2 (nth_error_None m (vidx l))) by lia. split; [discriminate|].
    intro Hi. specialize (R _ Hi). lia.
Qed.

(** ** Positions and levels *)
Fixpoint lpos (ss : list step) (l : N) : option nat :=
  match ss with
  | [] => None
  | s :: r => match lpos r l with
              | Some i => Some (S i)
              | None => if N.eqb (s_lit s) l then Some 0 else None
              end
  end.

Lemma lpos_app a b l : lpos (a ++ b) l =
  match lpos b l with Some i => Some (length a + i) | None => lpos a l end.
Proof.
  induction a; simpl; [destruct (lpos b l); auto|]. rewrite IHa. destruct (lpos b l); auto.
Qed.

Lemma lpos_some ss l i : lpos ss l = Some i -> exists s, nth_error ss i = Some s /\ s_lit s = l.
Proof.
  revert i; induction ss as [|s r IH]; simpl; intros i H; [discriminate|].
  destruct (lpos r l); [inv H; simpl; eauto|]. destruct (N.eqb_spec (s_lit s) l); inv H. exists s. auto.
Qed.

Lemma lpos_none ss l : lpos ss l = None <-> ~ In l (slits ss).
Proof.
  induction ss as [|s r IH]; simpl; [tauto|]. destruct (lpos r l) eqn:E.
  - split; [discriminate|]. intro H. exfalso. apply H. right.
    apply lpos_some in E as (s' & E & <-). apply in_map. eapply nth_error_In; eauto.
  - destruct (N.eqb_spec (s_lit s) l); split; intro H; try discriminate; try tauto.
Qed.

Lemma lpos_in ss l : In l (slits ss) -> exists i, lpos ss l = Some i.
Proof. intro H. destruct (lpos ss l) eqn:E; eauto. apply lpos_none in E. contradiction. Qed.

Lemma lpos_In ss l i : lpos ss l = Some i -> In l (slits ss).
Proof. intro H. apply lpos_some in H as (s & E & <-). apply in_map. eapply nth_error_In; eauto. Qed.

Lemma lpos_lt ss l i : lpos ss l = Some i -> i < length ss.
Proof. intro H. apply lpos_some in H as (s & E & _). apply nth_error_Some. congruence. Qed.

Lemma lpos_max ss l i j s : lpos ss l = Some i -> nth_error ss j = Some s -> s_lit s = l -> j <= i.
Proof.
  revert i j; induction ss as [|s' r IH]; simpl; intros i j H E El; [discriminate|].
  destruct (lpos r l) as [k|] eqn:Er.
  - inv H. destruct j; [lia|]. simpl in E. specialize (IH _ _ eq_refl E eq_refl). lia.
  - destruct j; [lia|]. exfalso. apply lpos_none in Er. apply Er. simpl in E.
    rewrite <- El. apply in_map. eapply nth_error_In; eauto.
Qed.

Lemma in_slits ss l : In l (slits ss) <-> exists i s, nth_error ss i = Some s /\ s_lit s = l.
Proof.
  rewrite in_map_iff. split.
  - intros (s & E & Hi). apply In_nth_error in Hi as [i E']. eauto.
  - intros (i & s & E & El). exists s. split; auto. eapply nth_error_In; eauto.
Qed.

Definition slev (ss : list step) (l : N) : nat :=
  match find (fun s => N.eqb (s_lit s) l) ss with Some s => s_level s | None => 0 end.

Lemma find_some_in ss l : In l (slits ss) -> exists i s, find (fun s => N.eqb (s_lit s) l) ss = Some s /\
  nth_error ss i = Some s /\ s_lit s = l.
Proof.
  induction ss as [|s r IH]; simpl; intro H; [contradiction|].
  destruct (N.eqb_spec (s_lit s) l).
  - exists 0, s. auto.
  - destruct H as [H|H]; [contradiction|]. destruct (IH H) as (i & s' & A & B & C). exists (S i), s'. auto.
Qed.

Lemma find_app {A} (f : A -> bool) a b : find f (a ++ b) = match find f a with Some x => Some x | None => find f b end.
Proof. induction a; simpl; auto. destruct (f a); auto. Qed.

Lemma slev_app ss b l : In l (slits ss) -> slev (ss ++ b) l = slev ss l.
Proof. intro H. unfold slev. rewrite find_app. destruct (find_some_in _ _ H) as (i & s & E & _). rewrite E. reflexivity. Qed.

Lemma slev_new ss s : ~ In (s_lit s) (slits ss) -> slev (ss ++ [s]) (s_lit s) = s_level s.
Proof.
  intro H. unfold slev. rewrite find_app. destruct (find _ ss) eqn:E.
  - apply find_some in E as [E1 E2]. apply N.eqb_eq in E2. exfalso. apply H. rewrite <- E2. apply in_map; auto.
  - simpl. rewrite N.eqb_refl. reflexivity.
Qed.

(** Number of decisions at or before a position. *)
Definition lvl (ds : list nat) (i : nat) : nat := length (filter (fun d => d <=? i) ds).

Lemma filter_length_le' {A} (f : A -> bool) l : length (filter f l) <= length l.
Proof. induction l; simpl; auto. destruct (f a); simpl; lia. Qed.

Lemma lvl_mono ds i j : i <= j -> lvl ds i <= lvl ds j.
Proof.
  intro H. unfold lvl. induction ds as [|d r IH]; simpl; auto.
  destruct (Nat.leb_spec d i), (Nat.leb_spec d j); simpl; lia.
Qed.
Lemma lvl_le ds i : lvl ds i <= length ds.
Proof. apply filter_length_le'. Qed.
Lemma lvl_all ds i : (forall d, In d ds -> d <= i) -> lvl ds i = length ds.
Proof.
  unfold lvl. induction ds as [|d r IH]; simpl; intro H; auto.
  destruct (Nat.leb_spec d i); [simpl; rewrite IH; auto|]. specialize (H d (or_introl eq_refl)). lia.
Qed.
Lemma lvl_none ds i : (forall d, In d ds -> i < d) -> lvl ds i = 0.
Proof.
  unfold lvl. induction ds as [|d r IH]; simpl; intro H; auto.
  destruct (Nat.leb_spec d i); [|apply IH; auto]. specialize (H d (or_introl eq_refl)). lia.
Qed.

Lemma lvl_nth ds k d i : StronglySorted lt ds -> nth_error ds k = Some d -> (i < d <-> lvl ds i <= k).
Proof.
  revert k; induction ds as [|x r IH]; intros k S E; [destruct k; discriminate|].
  inversion S as [|? ? S1 S2]; subst. rewrite Forall_forall in S2.
  unfold lvl. simpl. destruct k; simpl in E.
  - inv E. destruct (Nat.leb_spec d i); simpl; [lia|]. split; auto. intros _.
    fold (lvl r i). rewrite lvl_none; auto. intros y Hy. specialize (S2 _ Hy). lia.
  - pose proof (nth_error_In _ _ E) as Hd. specialize (S2 _ Hd). specialize (IH _ S1 E).
    fold (lvl r i). destruct (Nat.leb_spec x i); simpl; fold (lvl r i); [lia|].
    rewrite lvl_none; [lia|]. intros y Hy. inversion S; subst. rewrite Forall_forall in H3. specialize (H3 _ Hy). lia.
Qed.

Lemma lvl_firstn ds k d i : StronglySorted lt ds -> nth_error ds k = Some d -> i < d ->
  lvl (firstn k ds) i = lvl ds i.
Proof.
  intros S E Hi. rewrite <- (firstn_skipn k ds) at 2. unfold lvl. rewrite filter_app, app_length.
  assert (filter (fun d => d <=? i) (skipn k ds) = []) as ->; [|simpl; lia].
  assert (G : forall y, In y (skipn k ds) -> d <= y).
  { clear Hi. revert k E; induction S as [|x r S IH F]; intros k E; [destruct k; discriminate|].
    destruct k; simpl in *.
    - inv E. intros y [<-|Hy]; auto. rewrite Forall_forall in F. specialize (F _ Hy). lia.
    - apply IH; auto. }
  induction (skipn k ds) as [|y r IH]; simpl; auto. specialize (G y (or_introl eq_refl)) as Gy.
  destruct (Nat.leb_spec y i); [lia|]. apply IH. intros; apply G; simpl; auto.
Qed.

Lemma sorted_firstn (ds : list nat) k : StronglySorted lt ds -> StronglySorted lt (firstn k ds).
Proof.
  intro S. revert k; induction S as [|x r S IH F]; intros k; destruct k; simpl; constructor; auto.
  rewrite Forall_forall in *. intros y Hy. apply F. rewrite <- (firstn_skipn k r). apply in_or_app; auto.
Qed.

Lemma sorted_snoc (ds : list nat) x : StronglySorted lt ds -> (forall d, In d ds -> d < x) -> StronglySorted lt (ds ++ [x]).
Proof.
  intros S H. induction S as [|y r S IH F]; simpl; constructor; auto.
  - constructor.
  - apply IH. intros; apply H; simpl; auto.
  - rewrite Forall_forall in *. intros z Hz. apply in_app_or in Hz as [Hz|[<-|[]]]; auto. apply H; simpl; auto.
Qed.

(** ** The trail *)
Record TR (n : nat) (t : trail) : Prop := {
  tr_len : length (t_index t) = n;
  tr_idx : forall l, In l (slits (t_steps t)) -> nth_error (t_index t) (vidx l) = Some (lpos (t_steps t) l);
  tr_dup : forall i j si sj, i < j -> nth_error (t_steps t) i = Some si -> nth_error (t_steps t) j = Some sj ->
    s_lit si = s_lit sj -> (s_level si = 0 /\ s_level sj = 0) /\ (s_reason si = RUnit /\ s_reason sj = RUnit);
  tr_hd : t_decisions t = 0 :: tl (t_decisions t);
  tr_sort : StronglySorted lt (tl (t_decisions t));
  tr_ds : forall d, In d (tl (t_decisions t)) -> d < length (t_steps t) /\ d <= t_propagated t;
  tr_lev : forall i s, nth_error (t_steps t) i = Some s -> s_level s = lvl (tl (t_decisions t)) i;
  tr_rdec : forall i s, nth_error (t_steps t) i = Some s ->
    (s_reason s = RDecision <-> In i (tl (t_decisions t)));
  tr_q : t_propagated t <= length (t_steps t) }.

Lemma tr_dl n t : TR n t -> decision_level t = length (tl (t_decisions t)).
Proof. intro H. unfold decision_level. rewrite (tr_hd _ _ H). simpl. lia. Qed.

Section TRl.
Variables (n : nat) (t : trail).
Hypothesis H : TR n t.
Notation ss := (t_steps t).

Lemma tr_mono i j si sj : i <= j -> nth_error ss i = Some si -> nth_error ss j = Some sj -> s_level si <= s_level sj.
Proof. intros L A B. rewrite (tr_lev _ _ H _ _ A), (tr_lev _ _ H _ _ B). apply lvl_mono; auto. Qed.

Lemma tr_lev_le i s : nth_error ss i = Some s -> s_level s <= decision_level t.
Proof. intro A. rewrite (tr_lev _ _ H _ _ A), (tr_dl n) by auto. apply lvl_le. Qed.

Lemma tr_lev_last i s : nth_error ss i = Some s -> t_propagated t <= i -> s_level s = decision_level t.
Proof.
  intros A L. rewrite (tr_lev _ _ H _ _ A), (tr_dl n) by auto. apply lvl_all. intros d Hd.
  destruct (tr_ds _ _ H _ Hd). lia.
Qed.

Lemma tr_slev i s : nth_error ss i = Some s -> slev ss (s_lit s) = s_level s.
Proof.
  intro A. assert (Hi : In (s_lit s) (slits ss)) by (apply in_slits; eauto).
  destruct (find_some_in _ _ Hi) as (j & s' & E & B & C). unfold slev. rewrite E.
  destruct (Nat.lt_total i j) as [L|[->|L]].
  - destruct (tr_dup _ _ H _ _ _ _ L A B (eq_sym C)) as [[]]; congruence.
  - congruence.
  - destruct (tr_dup _ _ H _ _ _ _ L B A C) as [[]]; congruence.
Qed.

Lemma tr_slev_le l : slev ss l <= decision_level t.
Proof.
  unfold slev. destruct (find _ ss) eqn:E; [|lia]. apply find_some in E as [E _].
  apply In_nth_error in E as [i E]. eapply tr_lev_le; eauto.
Qed.

Lemma tr_index l : In l (slits ss) -> exists i s, trail_index t l = Ret i /\ lpos ss l = Some i /\
  nth_error ss i = Some s /\ s_lit s = l /\ slev ss l = s_level s.
Proof.
  intro Hi. destruct (lpos_in _ _ Hi) as [i E]. destruct (lpos_some _ _ _ E) as (s & A & B).
  exists i, s. split.
  - unfold trail_index. rewrite (proj2 (vget_ok _ _ _) (tr_idx _ _ H _ Hi)), E. reflexivity.
  - do 3 (split; [auto|]). rewrite <- B. eapply tr_slev; eauto.
Qed.

Lemma tr_index_neg l : In (neg l) (slits ss) -> exists i s, trail_index t l = Ret i /\ lpos ss (neg l) = Some i /\
  nth_error ss i = Some s /\ s_lit s = neg l /\ slev ss (neg l) = s_level s.
Proof.
  intro Hi. destruct (tr_index _ Hi) as (i & s & A & B). exists i, s. split; auto.
  unfold trail_index in *. rewrite vidx_neg in A. exact A.
Qed.

Lemma tr_step_neg l : In (neg l) (slits ss) -> exists s, step_for_var t l = Ret s /\ s_lit s = neg l /\
  s_level s = slev ss (neg l) /\ In s ss.
Proof.
  intro Hi. destruct (tr_index_neg _ Hi) as (i & s & A & B & C & D & E). exists s.
  unfold step_for_var. rewrite A. simpl. split; [apply vget_ok; auto|]. split; auto. split; auto.
  eapply nth_error_In; eauto.
Qed.

(** Steps above level 0 and non-unit steps occur once. *)
Lemma tr_canon i s : nth_error ss i = Some s -> s_reason s <> RUnit \/ s_level s <> 0 -> lpos ss (s_lit s) = Some i.
Proof.
  intros A G. destruct (lpos_in ss (s_lit s)) as [j E]; [apply in_slits; eauto|].
  destruct (lpos_some _ _ _ E) as (s' & B & C). pose proof (lpos_max _ _ _ _ _ E A eq_refl) as L.
  destruct (Nat.eq_dec i j); [congruence|]. exfalso.
  destruct (tr_dup _ _ H i j s s') as [[]]; auto; [lia|]. intuition congruence.
Qed.
End TRl.

(** *** Appending a step *)
Definition fresh (dbg : bool) (t : trail) (s : step) : Prop :=
  ~ In (neg (s_lit s)) (slits (t_steps t)) /\
  (~ In (s_lit s) (slits (t_steps t)) \/
   (dbg = false /\ s_reason s = RUnit /\ tl (t_decisions t) = [] /\
    forall s', In s' (t_steps t) -> s_reason s' = RUnit)).

Definition t_push (t : trail) (s : step) : trail :=
  mkTrail (upd (t_index t) (vidx (s_lit s)) (Some (length (t_steps t))))
    (t_steps t ++ [s]) (t_propagated t) (t_decisions t).

Lemma nth_snoc {A} (l : list A) x i y : nth_error (l ++ [x]) i = Some y ->
  (i < length l /\ nth_error l i = Some y) \/ (i = length l /\ y = x).
Proof.
  intro H. destruct (Nat.lt_ge_cases i (length l)).
  - rewrite nth_error_app1 in H by auto. auto.
  - rewrite nth_error_app2 in H by auto. destruct (i - length l) eqn:E; simpl in H.
    + inv H. right. split; auto. lia.
    + destruct n; discriminate.
Qed.

Lemma TR_push n dbg t s : TR n t -> vidx (s_lit s) < n -> fresh dbg t s -> s_level s = decision_level t ->
  s_reason s <> RDecision -> TR n (t_push t s).
Proof.
  intros H Hv [F1 F2] Hl Hr. constructor; unfold t_push; cbn [t_index t_steps t_propagated t_decisions].
  - rewrite upd_length. apply (tr_len _ _ H).
  - intros l Hi. rewrite map_app in Hi. rewrite lpos_app, upd_nth. cbn [lpos map]. 
    rewrite (tr_len _ _ H), (proj2 (Nat.ltb_lt _ _) Hv). apply in_app_or in Hi.
    destruct (N.eqb_spec (s_lit s) l) as [E|E].
    + subst l. rewrite Nat.eqb_refl, Nat.add_0_r. reflexivity.
    + destruct Hi as [Hi|[Hi|[]]]; [|congruence].
      destruct (Nat.eqb_spec (vidx (s_lit s)) (vidx l)) as [E1|E1]; [|apply (tr_idx _ _ H); auto].
      destruct (vidx_cases _ _ (eq_sym E1)); subst; [congruence|contradiction].
  - intros i j si sj L A B C. apply nth_snoc in A as [[A1 A2]|[A1 ->]].
    2:{ assert (j < length (t_steps t ++ [s])) by (apply nth_error_Some; congruence). rewrite app_length in *. simpl in *. lia. }
    apply nth_snoc in B as [[B1 B2]|[B1 ->]]; [exact (tr_dup _ _ H i j si sj L A2 B2 C)|].
    destruct F2 as [F2|(F2 & F3 & F4 & F5)].
    + exfalso. apply F2. apply in_slits. exists i, si. split; [exact A2|exact C].
    + split; [|split; auto; apply F5; eapply nth_error_In; eauto].
      rewrite (tr_lev _ _ H _ _ A2), F4, Hl, (tr_dl n), F4 by auto. auto.
  - apply (tr_hd _ _ H).
  - apply (tr_sort _ _ H).
  - intros d Hd. destruct (tr_ds _ _ H _ Hd). rewrite app_length. simpl. lia.
  - intros i s' A. apply nth_snoc in A as [[A1 A2]|[-> ->]]; [apply (tr_lev _ _ H); auto|].
    rewrite Hl, (tr_dl n) by auto. symmetry. apply lvl_all. intros d Hd. destruct (tr_ds _ _ H _ Hd). lia.
  - intros i s' A. apply nth_snoc in A as [[A1 A2]|[-> ->]]; [apply (tr_rdec _ _ H); auto|].
    split; [contradiction|]. intro Hd. destruct (tr_ds _ _ H _ Hd). lia.
  - pose proof (tr_q _ _ H). rewrite app_length. lia.
Qed.

Lemma assign_raw_ok n dbg vals t s : TR n t -> VR n vals (slits (t_steps t)) -> vidx (s_lit s) < n ->
  fresh dbg t s ->
  exists v', assign_raw dbg vals t s = Ret (v', t_push t s) /\ VR n v' (slits (t_steps t ++ [s])).
Proof.
  intros H HV Hv [F1 F2]. unfold assign_raw. rewrite vset_lt by (rewrite (tr_len _ _ H); auto). cbn [bind].
  rewrite (VR_assigned _ _ _ _ HV Hv). cbn [bind].
  destruct (VR_assign _ _ _ _ HV Hv F1) as (v' & E & HV').
  rewrite (proj2 (inb_false _ _) F1), orb_false_r, E. cbn [bind].
  exists v'. split; [|rewrite map_app; exact HV'].
  unfold dassert. destruct F2 as [F2|(-> & _)]; [|reflexivity].
  rewrite (proj2 (inb_false _ _) F2). simpl. rewrite andb_false_r. reflexivity.
Qed.

(** *** Decisions *)
Definition t_decide (t : trail) (l : N) : trail :=
  mkTrail (upd (t_index t) (vidx l) (Some (length (t_steps t))))
    (t_steps t ++ [mkStep l (S (decision_level t)) RDecision]) (t_propagated t)
    (t_decisions t ++ [length (t_steps t)]).

Lemma TR_decide n t l : TR n t -> vidx l < n -> ~ In l (slits (t_steps t)) -> ~ In (neg l) (slits (t_steps t)) ->
  t_propagated t = length (t_steps t) -> TR n (t_decide t l).
Proof.
  intros H Hv F2 F1 Hq. set (s := mkStep l (S (decision_level t)) RDecision).
  assert (Etl : tl (t_decisions t ++ [length (t_steps t)]) = tl (t_decisions t) ++ [length (t_steps t)]).
  { rewrite (tr_hd _ _ H). reflexivity. }
  constructor; unfold t_decide; cbn [t_index t_steps t_propagated t_decisions]; fold s.
  - rewrite upd_length. apply (tr_len _ _ H).
  - intros l' Hi. rewrite map_app in Hi. rewrite lpos_app, upd_nth. cbn [lpos map].
    rewrite (tr_len _ _ H), (proj2 (Nat.ltb_lt _ _) Hv). apply in_app_or in Hi. cbn [s_lit s].
    destruct (N.eqb_spec l l') as [E|E].
    + subst l'. rewrite Nat.eqb_refl, Nat.add_0_r. reflexivity.
    + destruct Hi as [Hi|[Hi|[]]]; [|simpl in Hi; congruence].
      destruct (Nat.eqb_spec (vidx l) (vidx l')) as [E1|E1]; [|apply (tr_idx _ _ H); auto].
      destruct (vidx_cases _ _ (eq_sym E1)); subst; [congruence|contradiction].
  - intros i j si sj L A B C. apply nth_snoc in A as [[A1 A2]|[A1 ->]].
    2:{ assert (j < length (t_steps t ++ [s])) by (apply nth_error_Some; congruence). rewrite app_length in *. simpl in *. lia. }
    apply nth_snoc in B as [[B1 B2]|[B1 ->]]; [exact (tr_dup _ _ H i j si sj L A2 B2 C)|].
    exfalso. apply F2. apply in_slits. exists i, si. auto.
  - rewrite (tr_hd _ _ H). reflexivity.
  - rewrite Etl. apply sorted_snoc; [apply (tr_sort _ _ H)|]. intros d Hd. apply (tr_ds _ _ H); auto.
  - intros d Hd. rewrite Etl in Hd. rewrite app_length. simpl. apply in_app_or in Hd as [Hd|[<-|[]]]; [|lia].
    destruct (tr_ds _ _ H _ Hd). lia.
  - intros i s' A. rewrite Etl. unfold lvl. rewrite filter_app, app_length. fold (lvl (tl (t_decisions t)) i). cbn [filter].
    apply nth_snoc in A as [[A1 A2]|[-> ->]].
    + rewrite (tr_lev _ _ H _ _ A2). destruct (Nat.leb_spec (length (t_steps t)) i); [lia|]. simpl. lia.
    + rewrite Nat.leb_refl. simpl. rewrite (tr_dl n) by auto. rewrite lvl_all; [lia|].
      intros d Hd. destruct (tr_ds _ _ H _ Hd). lia.
  - intros i s' A. rewrite Etl, in_app_iff. apply nth_snoc in A as [[A1 A2]|[-> ->]].
    + rewrite (tr_rdec _ _ H _ _ A2). split; auto. intros [G|[G|[]]]; auto. lia.
    + split; auto. intros _. right. simpl. auto.
  - rewrite app_length. simpl. lia.
Qed.

Lemma assign_decision_ok n dbg p l : TR n (p_trail p) -> VR n (p_values p) (slits (t_steps (p_trail p))) ->
  vidx l < n -> ~ In l (slits (t_steps (p_trail p))) -> ~ In (neg l) (slits (t_steps (p_trail p))) ->
  exists v', assign_decision dbg p l = Ret (p_set_vt p v' (t_decide (p_trail p) l)) /\
    VR n v' (slits (t_steps (p_trail p)) ++ [l]).
Proof.
  intros H HV Hv F2 F1. unfold assign_decision, assign, assign_raw. cbn [p_trail p_set_trail p_values t_index t_steps s_lit].
  rewrite vset_lt by (rewrite (tr_len _ _ H); auto). cbn [bind]. rewrite (VR_assigned _ _ _ _ HV Hv). cbn [bind].
  rewrite (proj2 (inb_false _ _) F1), (proj2 (inb_false _ _) F2).
  destruct (VR_assign _ _ _ _ HV Hv F1) as (v' & E & HV'). rewrite E. unfold dassert. simpl. rewrite andb_false_r. cbn [bind].
  exists v'. split; auto. unfold p_set_vt, t_decide, decision_level. cbn [p_trail t_decisions p_unsat p_binary p_long p_watches].
  do 4 f_equal. rewrite (tr_hd _ _ H). cbn [app length tl]. rewrite app_length. cbn [length]. do 3 f_equal. lia.
Qed.

(** *** Backtracking *)
Definition t_back (t : trail) (level target : nat) (ti : list (option nat)) : trail :=
  mkTrail ti (firstn target (t_steps t)) (Nat.min (t_propagated t) target) (firstn (level + 1) (t_decisions t)).

Section TBack.
Variables (n : nat) (t : trail) (level target : nat).
Hypothesis H : TR n t.
Hypothesis Ht : nth_error (tl (t_decisions t)) level = Some target.
Notation ss := (t_steps t).

Lemma back_level i s : nth_error ss i = Some s -> (i < target <-> s_level s <= level).
Proof. intro A. rewrite (tr_lev _ _ H _ _ A). apply lvl_nth; auto. apply (tr_sort _ _ H). Qed.

Lemma back_target : target < length ss /\ target <= t_propagated t.
Proof. apply (tr_ds _ _ H). eapply nth_error_In; eauto. Qed.

Lemma back_in l : In l (slits (firstn target ss)) <-> In l (slits ss) /\ slev ss l <= level.
Proof.
  split.
  - intro Hi. apply in_slits in Hi as (i & s & E & <-). rewrite nth_error_firstn in E.
    destruct (Nat.ltb_spec i target); [|discriminate]. split; [apply in_slits; eauto|].
    rewrite (tr_slev n t H i s E). apply (back_level i s E). auto.
  - intros [Hi L]. apply in_slits in Hi as (i & s & E & <-). rewrite (tr_slev n t H i s E) in L.
    apply (back_level i s E) in L. apply in_slits. exists i, s. rewrite nth_error_firstn.
    rewrite (proj2 (Nat.ltb_lt _ _) L). auto.
Qed.

Lemma back_slev l : In l (slits (firstn target ss)) -> slev (firstn target ss) l = slev ss l.
Proof. intro Hi. rewrite <- (firstn_skipn target ss) at 2. rewrite slev_app; auto. Qed.

Lemma back_lpos l i : In l (slits (firstn target ss)) -> (lpos (firstn target ss) l = Some i <-> lpos ss l = Some i).
Proof.
  intro Hi. assert (N : lpos (skipn target ss) l = None).
  { apply lpos_none. intro Hs. apply back_in in Hi as [_ L]. apply in_slits in Hs as (j & s & E & <-).
    rewrite nth_error_skipn in E. rewrite (tr_slev n t H _ s E) in L. apply (back_level _ s E) in L. lia. }
  rewrite <- (firstn_skipn target ss) at 2. rewrite lpos_app, N. tauto.
Qed.

Lemma back_nodup : NoDup (slits (skipn target ss)) /\ forall l, In l (slits (firstn target ss)) -> ~ In l (slits (skipn target ss)).
Proof.
  split.
  - apply NoDup_nth_error. intros i j Hi E. rewrite map_length in Hi.
    rewrite !nth_error_map, !nth_error_skipn in E.
    destruct (nth_error ss (target + i)) as [si|] eqn:Ei.
    2:{ apply nth_error_None in Ei. rewrite skipn_length in Hi. lia. }
    destruct (nth_error ss (target + j)) as [sj|] eqn:Ej; [|discriminate]. simpl in E. inv E.
    assert (G : forall i si, nth_error ss (target + i) = Some si -> s_level si <> 0).
    { intros i' s' E'. pose proof (back_level _ _ E'). lia. }
    destruct (Nat.lt_total i j) as [L|[L|L]]; auto; exfalso.
    + destruct (tr_dup _ _ H (target + i) (target + j) si sj) as [[]]; auto; [lia|]. eapply G; eauto.
    + destruct (tr_dup _ _ H (target + j) (target + i) sj si) as [[]]; auto; [lia|]. eapply G; eauto.
  - intros l Hi Hs. apply back_in in Hi as [_ L]. apply in_slits in Hs as (j & s & E & <-).
    rewrite nth_error_skipn in E. rewrite (tr_slev n t H _ s E) in L. apply (back_level _ s E) in L. lia.
Qed.

Lemma TR_back ti : length ti = n -> (forall l, In l (slits (firstn target ss)) -> nth_error ti (vidx l) = nth_error (t_index t) (vidx l)) ->
  TR n (t_back t level target ti).
Proof.
  intros L Hti. pose proof back_target as [T1 T2].
  assert (Etl : tl (firstn (level + 1) (t_decisions t)) = firstn level (tl (t_decisions t))).
  { rewrite Nat.add_comm, (tr_hd _ _ H). reflexivity. }
  constructor; unfold t_back; cbn [t_index t_steps t_propagated t_decisions].
  - auto.
  - intros l Hi. rewrite Hti by auto. pose proof (proj1 (back_in l) Hi) as [Hi2 _]. rewrite (tr_idx _ _ H _ Hi2). f_equal.
    destruct (lpos_in _ _ Hi2) as [i E]. rewrite E. symmetry. apply back_lpos; auto.
  - intros i j si sj Lij A B. rewrite nth_error_firstn in A, B. destruct (Nat.ltb_spec i target), (Nat.ltb_spec j target); try discriminate.
    intro C. exact (tr_dup _ _ H i j si sj Lij A B C).
  - rewrite Nat.add_comm, (tr_hd _ _ H). reflexivity.
  - rewrite Etl. apply sorted_firstn, (tr_sort _ _ H).
  - intros d Hd. rewrite Etl in Hd. rewrite firstn_length. apply In_nth_error in Hd as [k E]. rewrite nth_error_firstn in E.
    destruct (Nat.ltb_spec k level) as [Lk|]; [|discriminate].
    assert (d < target).
    { apply (lvl_nth _ _ _ d (tr_sort _ _ H) Ht). pose proof (proj2 (lvl_nth _ _ _ d (tr_sort _ _ H) E)).
      destruct (Nat.le_gt_cases (lvl (tl (t_decisions t)) d) level); auto. exfalso.
      assert (K : nth_error (tl (t_decisions t)) level = Some target) by exact Ht.
      pose proof (lvl_nth _ _ _ d (tr_sort _ _ H) K) as W1.
      assert (target <= d) by lia.
      pose proof (lvl_nth _ _ _ target (tr_sort _ _ H) K) as W2. pose proof (lvl_nth _ _ _ target (tr_sort _ _ H) E) as W3.
      pose proof (lvl_mono (tl (t_decisions t)) target d). 
      destruct (Nat.eq_dec target d) as [->|].
      - assert (level = k); [|lia]. apply (proj1 (NoDup_nth_error (tl (t_decisions t)))).
        + clear -H. pose proof (tr_sort _ _ H) as S. induction S as [|x r S IH F]; constructor; auto. intro G. rewrite Forall_forall in F. specialize (F _ G). lia.
        + apply nth_error_Some. congruence.
        + congruence.
      - lia. }
    pose proof (tr_ds _ _ H d (nth_error_In _ _ E)). lia.
  - intros i s A. rewrite nth_error_firstn in A. destruct (Nat.ltb_spec i target); [|discriminate].
    rewrite (tr_lev _ _ H _ _ A), Etl. symmetry. eapply lvl_firstn; eauto. apply (tr_sort _ _ H).
  - intros i s A. rewrite nth_error_firstn in A. destruct (Nat.ltb_spec i target); [|discriminate].
    rewrite (tr_rdec _ _ H _ _ A), Etl. split.
    + intro Hd. apply In_nth_error in Hd as [k E]. 
      assert (k < level).
      { pose proof (proj1 (lvl_nth _ _ _ i (tr_sort _ _ H) Ht) H0). pose proof (lvl_nth _ _ _ i (tr_sort _ _ H) E). lia. }
      eapply nth_error_In with (n := k). rewrite nth_error_firstn, (proj2 (Nat.ltb_lt _ _)); auto.
    + intro Hd. rewrite <- (firstn_skipn level). apply in_or_app. auto.
  - rewrite firstn_length. lia.
Qed.
End TBack.
