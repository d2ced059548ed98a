(** Backtracking: values, trail and callbacks. *)
From Coq Require Import NArith List Bool Arith Lia Sorted ZifyN ZifyNat ZifyBool.
From Verif Require Import Model_Base Model_Lit Model_PartialAssignment Model_Header Model_Arena Model_Prop
  Model_Heap Model_Vsids Model_Analysis Spec Drivers_Heap Proof_Base Proof_PA Proof_Lit Proof_Heap Proof_Trail.
Import ListNotations.

(** ** Callback state *)
Record CB (n : nat) (cb : callbacks) : Prop := {
  cb_hs : HS (vs_activity (cb_vsids cb));
  cb_len : length (h_values (vs_activity (cb_vsids cb))) = n;
  cb_ph : length (cb_phases cb) = n }.

Definition enq (cb : callbacks) (v : nat) : Prop := In v (h_heap (vs_activity (cb_vsids cb))).

(** Every unassigned variable is enqueued. *)
Definition cover (n : nat) (cb : callbacks) (ls : list N) : Prop :=
  forall l, vidx l < n -> ~ In l ls -> ~ In (neg l) ls -> enq cb (vidx l).

Definition cb_ho (cb : callbacks) : Prop := HO (vs_activity (cb_vsids cb)).

Lemma cb_unassign_ok n cb l : CB n cb -> vidx l < n ->
  exists cb', cb_unassign cb l = Ret cb' /\ CB n cb' /\ (forall v, enq cb' v <-> enq cb v \/ v = vidx l) /\
    h_values (vs_activity (cb_vsids cb')) = h_values (vs_activity (cb_vsids cb)) /\
    vs_increment (cb_vsids cb') = vs_increment (cb_vsids cb) /\
    cb_phases cb' = upd (cb_phases cb) (vidx l) (N.odd l) /\ (cb_ho cb -> cb_ho cb').
Proof.
  intros H Hv. unfold cb_unassign, vsids_unassign.
  destruct (enqueue_ok (vs_activity (cb_vsids cb)) (vidx l) (cb_hs _ _ H)) as (h' & E & A & B & C & D).
  { rewrite (cb_len _ _ H); auto. }
  rewrite E. cbn [bind]. unfold phases_unassign. rewrite vset_lt by (rewrite (cb_ph _ _ H); auto). cbn [bind].
  rewrite lit_pos_odd.
  eexists. split; [reflexivity|]. split.
  - constructor; cbn [cb_vsids cb_phases vs_activity]; auto.
    + rewrite B. apply (cb_len _ _ H).
    + rewrite upd_length. apply (cb_ph _ _ H).
  - unfold enq, cb_ho. cbn [cb_vsids cb_phases vs_activity vs_increment]. auto 6.
Qed.

(** The phase table after undoing the assignments [ls] in this order. *)
Definition save_phases (ph : list bool) (ls : list N) : list bool :=
  fold_left (fun ph l => upd ph (vidx l) (N.odd l)) ls ph.

Lemma save_phases_app ph a b : save_phases ph (a ++ b) = save_phases (save_phases ph a) b.
Proof. apply fold_left_app. Qed.

Lemma unassign_steps n dbg B : forall A cb vals ti,
  VR n vals (A ++ slits B) -> NoDup (slits B) -> (forall l, In l A -> ~ In l (slits B)) -> CB n cb -> length ti = n ->
  exists cb' v' ti', foldM (unassign_step dbg) B (cb, vals, ti) = Ret (cb', v', ti') /\ VR n v' A /\
    CB n cb' /\ foldM cb_unassign (slits B) cb = Ret cb' /\
    (forall v, enq cb' v <-> enq cb v \/ exists l, In l (slits B) /\ v = vidx l) /\
    h_values (vs_activity (cb_vsids cb')) = h_values (vs_activity (cb_vsids cb)) /\
    vs_increment (cb_vsids cb') = vs_increment (cb_vsids cb) /\
    cb_phases cb' = save_phases (cb_phases cb) (slits B) /\ (cb_ho cb -> cb_ho cb') /\
    length ti' = n /\
    (forall i, (forall l, In l (slits B) -> vidx l <> i) -> nth_error ti' i = nth_error ti i) /\
    (forall l, dbg = true -> In l (slits B) -> nth_error ti' (vidx l) = Some None).
Proof.
  induction B as [|s B IH]; intros A cb vals ti HV ND HD HC HL.
  - simpl. exists cb, vals, ti. rewrite app_nil_r in HV. do 4 (split; [auto|]). split; [|intuition].
    intro v. split; auto. intros [G|(l & [] & _)]; auto.
  - cbn [map] in *. apply NoDup_cons_iff in ND as [ND1 ND2].
    assert (Hv : vidx (s_lit s) < n) by (apply (VR_range _ _ _ _ HV); apply in_elt).
    destruct (VR_unassign _ _ _ _ _ HV) as (v1 & E1 & HV1); auto.
    { intro G. apply (HD _ G). left. reflexivity. }
    destruct (cb_unassign_ok n cb (s_lit s) HC Hv) as (cb1 & E2 & C1 & C2 & C3 & C4 & C5 & C6).
    set (ti1 := if dbg then upd ti (vidx (s_lit s)) None else ti).
    assert (L1 : length ti1 = n) by (unfold ti1; destruct dbg; auto; rewrite upd_length; auto).
    destruct (IH A cb1 v1 ti1 HV1 ND2) as (cb' & v' & ti' & F1 & F2 & F3 & F4 & F5 & F6 & F7 & F8 & F9 & F10 & F11 & F12); auto.
    { intros l Hl Hb. apply (HD _ Hl). right. auto. }
    exists cb', v', ti'. split.
    { cbn [foldM]. unfold unassign_step at 1. rewrite E2. cbn [bind]. rewrite E1. cbn [bind].
      replace (if dbg then vset ti (vidx (s_lit s)) None else Ret ti) with (Ret ti1); [exact F1|].
      unfold ti1. destruct dbg; auto. rewrite vset_lt by lia. reflexivity. }
    do 2 (split; [auto|]). split; [cbn [foldM]; rewrite E2; exact F4|]. split.
    { intro v. rewrite F5, C2. split.
      - intros [[G| ->]|(l & G & ->)]; auto; right; eexists; split; [left; reflexivity|reflexivity|right; eauto|reflexivity].
      - intros [G|(l & [<-|G] & ->)]; auto. right. eauto. }
    split; [congruence|]. split; [congruence|]. split; [rewrite F8, C5; reflexivity|]. split; [auto|].
    split; [auto|]. split.
    + intros i Hi. rewrite F11; [|intros; apply Hi; right; auto]. unfold ti1. destruct dbg; auto.
      apply upd_other. apply Hi. left; auto.
    + intros l Hd [<-|Hl]; [|auto]. subst dbg. destruct (in_dec N.eq_dec (s_lit s) (slits B)); [contradiction|].
      rewrite F11.
      * unfold ti1. apply upd_same. lia.
      * intros l Hl Ev. destruct (vidx_cases _ _ Ev) as [-> |E]; [contradiction|]. subst l.
        apply (VR_cons _ _ _ (s_lit s) HV); [apply in_elt|]. apply in_or_app. right. right. auto.
Qed.

(** [backtrack_to_level] on the trail. *)
Lemma backtrack_ok n dbg p level cb :
  TR n (p_trail p) -> VR n (p_values p) (slits (t_steps (p_trail p))) -> CB n cb -> level < decision_level (p_trail p) ->
  exists target ti v' cb',
    nth_error (tl (t_decisions (p_trail p))) level = Some target /\
    backtrack_to_level dbg p level cb = Ret (p_set_vt p v' (t_back (p_trail p) level target ti), cb') /\
    TR n (t_back (p_trail p) level target ti) /\
    VR n v' (slits (firstn target (t_steps (p_trail p)))) /\
    CB n cb' /\ foldM cb_unassign (slits (skipn target (t_steps (p_trail p)))) cb = Ret cb' /\
    (forall v, enq cb' v <-> enq cb v \/ exists l, In l (slits (skipn target (t_steps (p_trail p)))) /\ v = vidx l) /\
    h_values (vs_activity (cb_vsids cb')) = h_values (vs_activity (cb_vsids cb)) /\
    vs_increment (cb_vsids cb') = vs_increment (cb_vsids cb) /\
    cb_phases cb' = save_phases (cb_phases cb) (slits (skipn target (t_steps (p_trail p)))) /\ (cb_ho cb -> cb_ho cb').
Proof.
  intros H HV HC Hl. rewrite (tr_dl n) in Hl by auto.
  destruct (nth_error (tl (t_decisions (p_trail p))) level) as [target|] eqn:Et.
  2:{ apply nth_error_None in Et. lia. }
  pose proof (back_target n _ _ _ H Et) as [T1 T2].
  destruct (back_nodup n _ _ _ H Et) as [ND HD].
  pose proof HV as HV2. rewrite <- (firstn_skipn target (t_steps (p_trail p))), map_app in HV2.
  destruct (unassign_steps n dbg _ _ _ _ (t_index (p_trail p)) HV2 ND HD HC (tr_len _ _ H))
    as (cb' & v' & ti & F1 & F2 & F3 & F4 & F5 & F6 & F7 & F8 & F9 & F10 & F11 & F12).
  exists target, ti, v', cb'. split; auto. split.
  - unfold backtrack_to_level. rewrite (tr_dl n) by auto. rewrite (proj2 (Nat.ltb_lt _ _) Hl).
    assert (E : vget (t_decisions (p_trail p)) (level + 1) = Ret target).
    { apply vget_ok. rewrite Nat.add_comm, (tr_hd _ _ H). exact Et. }
    rewrite E. cbn [bind]. rewrite (proj2 (Nat.leb_le _ _)) by lia. rewrite F1. reflexivity.
  - split; [|auto 10]. apply TR_back; auto. intros l Hi. apply F11. intros l' Hl' Ev.
    destruct (vidx_cases _ _ Ev) as [-> | ->]; [apply (HD _ Hi); auto|].
    apply (VR_cons _ _ _ l HV2); apply in_or_app; auto.
Qed.

Lemma cover_back n t level target cb cb' : TR n t -> nth_error (tl (t_decisions t)) level = Some target ->
  cover n cb (slits (t_steps t)) ->
  (forall v, enq cb' v <-> enq cb v \/ exists l, In l (slits (skipn target (t_steps t))) /\ v = vidx l) ->
  cover n cb' (slits (firstn target (t_steps t))).
Proof.
  intros H Et HC He l Hv N1 N2. apply He.
  assert (S : forall x, In x (slits (t_steps t)) -> ~ In x (slits (firstn target (t_steps t))) -> In x (slits (skipn target (t_steps t)))).
  { intros x Hx Hn. rewrite <- (firstn_skipn target (t_steps t)), map_app in Hx. apply in_app_or in Hx as [Hx|Hx]; auto. contradiction. }
  destruct (inb_spec l (slits (t_steps t))) as [I|I].
  - right. exists l. auto.
  - destruct (inb_spec (neg l) (slits (t_steps t))) as [J|J].
    + right. exists (neg l). rewrite vidx_neg. auto.
    + left. apply HC; auto.
Qed.
