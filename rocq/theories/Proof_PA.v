(** PartialAssignment refines a map to [option bool]. *)
From Coq Require Import NArith ZArith List Bool Arith Lia ZifyN ZifyNat ZifyBool.
From Verif Require Import Model_Base Model_Lit Model_PartialAssignment Spec Drivers Proof_Base.
Import ListNotations.
Local Open Scope N_scope.

(** The literal of variable [i] with polarity [b]. *)
Definition mklit (i : N) (b : bool) : N := 2 * i + (if b then 1 else 0).

Definition abyte (i : N) (o : option bool) : N :=
  match o with
  | Some b => to_u8 (mklit i b)
  | None => unassigned_byte i
  end.

Lemma lit_mklit l : l = mklit (l / 2) (N.odd l).
Proof.
  unfold mklit. rewrite odd_mod2. pose proof (N.div_mod l 2 ltac:(lia)).
  pose proof (N.mod_lt l 2 ltac:(lia)).
  destruct (l mod 2 =? 1) eqn:E; lia.
Qed.

Lemma mklit_var i b : mklit i b / 2 = i.
Proof. unfold mklit. symmetry. destruct b; [apply (N.div_unique _ 2 i 1)|apply (N.div_unique _ 2 i 0)]; lia. Qed.

Lemma mklit_odd i b : N.odd (mklit i b) = b.
Proof. unfold mklit. rewrite N.add_comm, N.odd_add_mul_2. destruct b; reflexivity. Qed.

Lemma to_u8_mklit i b : to_u8 (mklit i b) = mklit (i mod 128) b.
Proof.
  unfold to_u8, mklit. symmetry. apply (N.mod_unique _ 256 (i / 128)).
  - pose proof (N.mod_lt i 128 ltac:(lia)). destruct b; lia.
  - pose proof (N.div_mod i 128 ltac:(lia)). destruct b; lia.
Qed.

Lemma unassigned_byte_k i : unassigned_byte i = N.lxor (2 * (i mod 128)) 2.
Proof.
  unfold unassigned_byte. f_equal. pose proof (to_u8_mklit i false) as H.
  unfold mklit in H. rewrite !N.add_0_r in H. rewrite N.mul_comm. assumption.
Qed.

Lemma k128 (P : N -> bool) :
  forallb P (map N.of_nat (seq 0 128)) = true -> forall k, k < 128 -> P k = true.
Proof.
  intros H k Hk. rewrite forallb_forall in H. apply H. apply in_map_iff.
  exists (N.to_nat k). split; [lia|]. apply in_seq. lia.
Qed.

Definition kbyte (k : N) (o : option bool) : N :=
  match o with Some b => mklit k b | None => N.lxor (2 * k) 2 end.

Lemma abyte_k i o : abyte i o = kbyte (i mod 128) o.
Proof. destruct o; simpl; [apply to_u8_mklit|apply unassigned_byte_k]. Qed.

Definition ob_eqb (a b : option bool) : bool :=
  match a, b with
  | Some x, Some y => Bool.eqb x y
  | None, None => true
  | _, _ => false
  end.

Lemma ob_eqb_eq a b : ob_eqb a b = true <-> a = b.
Proof. destruct a as [[]|], b as [[]|]; simpl; split; congruence. Qed.

Lemma kcheck : forall k, k < 128 ->
  forallb (fun o =>
    Bool.eqb (negb (kbyte k o =? N.lxor (2 * k) 2)) (negb (ob_eqb o None)) &&
    forallb (fun b =>
      Bool.eqb (kbyte k o =? mklit k b) (ob_eqb o (Some b)) &&
      Bool.eqb (kbyte k o =? N.lxor (mklit k b) 1) (ob_eqb o (Some (negb b))) &&
      ob_eqb (match N.lxor (kbyte k o) (mklit k b) with
              | 0 => Some true | 1 => Some false | _ => None end)
             (match o with Some c => Some (Bool.eqb c b) | None => None end))
    [true; false])
  [None; Some true; Some false] = true.
Proof. apply k128. vm_compute. reflexivity. Qed.

Lemma kcheck_use k o : k < 128 ->
  negb (kbyte k o =? N.lxor (2 * k) 2) = negb (ob_eqb o None) /\
  forall b,
    (kbyte k o =? mklit k b) = ob_eqb o (Some b) /\
    (kbyte k o =? N.lxor (mklit k b) 1) = ob_eqb o (Some (negb b)) /\
    (match N.lxor (kbyte k o) (mklit k b) with
     | 0 => Some true | 1 => Some false | _ => None end)
    = (match o with Some c => Some (Bool.eqb c b) | None => None end).
Proof.
  intro Hk. pose proof (kcheck k Hk) as H. rewrite forallb_forall in H.
  assert (Ho : In o [None; Some true; Some false]) by (destruct o as [[]|]; simpl; auto).
  specialize (H o Ho). apply andb_true_iff in H as [H1 H2]. apply eqb_prop in H1.
  split; [assumption|]. intro b. rewrite forallb_forall in H2.
  assert (Hb : In b [true; false]) by (destruct b; simpl; auto).
  specialize (H2 b Hb). rewrite !andb_true_iff in H2. destruct H2 as [[Ha Hb'] Hc].
  apply eqb_prop in Ha, Hb'. apply ob_eqb_eq in Hc. auto.
Qed.

(** Representation relation. *)
Definition pa_rep (p : passign) (m : list (option bool)) : Prop :=
  length p = length m /\
  forall i o, nth_error m i = Some o -> nth_error p i = Some (abyte (N.of_nat i) o).

(** Value of a literal under the value of its variable. *)
Definition olit (l : lit) (o : option bool) : option bool :=
  match o with Some c => Some (Bool.eqb c (N.odd l)) | None => None end.

Lemma pa_read p m l o : pa_rep p m -> nth_error m (vidx l) = Some o ->
  vget p (vidx l) = Ret (kbyte ((l / 2) mod 128) o) /\ to_u8 l = mklit ((l/2) mod 128) (N.odd l).
Proof.
  intros [HL H] Hm. split.
  - apply vget_ok. rewrite (H _ _ Hm). f_equal.
    replace (N.of_nat (vidx l)) with (l / 2) by (rewrite vidx_div; lia). apply abyte_k.
  - rewrite (lit_mklit l) at 1. apply to_u8_mklit.
Qed.

Lemma pa_is_true_rep p m l o : pa_rep p m -> nth_error m (vidx l) = Some o ->
  pa_is_true p l = Ret (ob_eqb (olit l o) (Some true)).
Proof.
  intros Hr Hm. destruct (pa_read p m l o Hr Hm) as [E1 E2]. unfold pa_is_true. rewrite E1. simpl.
  rewrite E2. destruct (kcheck_use ((l/2) mod 128) o) as [_ K].
  { apply N.mod_lt; lia. }
  destruct (K (N.odd l)) as (-> & _). f_equal.
  unfold olit. destruct o as [[]|], (N.odd l); reflexivity.
Qed.

Lemma pa_is_false_rep p m l o : pa_rep p m -> nth_error m (vidx l) = Some o ->
  pa_is_false p l = Ret (ob_eqb (olit l o) (Some false)).
Proof.
  intros Hr Hm. destruct (pa_read p m l o Hr Hm) as [E1 E2]. unfold pa_is_false. rewrite E1. simpl.
  rewrite E2. destruct (kcheck_use ((l/2) mod 128) o) as [_ K].
  { apply N.mod_lt; lia. }
  destruct (K (N.odd l)) as (_ & -> & _). f_equal.
  unfold olit. destruct o as [[]|], (N.odd l); reflexivity.
Qed.

Lemma pa_value_rep p m l o : pa_rep p m -> nth_error m (vidx l) = Some o ->
  pa_value p l = Ret (olit l o).
Proof.
  intros Hr Hm. destruct (pa_read p m l o Hr Hm) as [E1 E2]. unfold pa_value. rewrite E1. simpl.
  rewrite E2. destruct (kcheck_use ((l/2) mod 128) o) as [_ K].
  { apply N.mod_lt; lia. }
  destruct (K (N.odd l)) as (_ & _ & H). simpl in H. rewrite H. reflexivity.
Qed.

Lemma pa_is_assigned_rep p m v o : pa_rep p m -> nth_error m (N.to_nat v) = Some o ->
  pa_is_assigned p v = Ret (negb (ob_eqb o None)).
Proof.
  intros [HL H] Hm. unfold pa_is_assigned.
  rewrite (proj2 (vget_ok _ _ _) (H _ _ Hm)). simpl. f_equal.
  rewrite N2Nat.id, abyte_k, unassigned_byte_k.
  apply kcheck_use. apply N.mod_lt; lia.
Qed.

Lemma pa_assign_rep p m l : pa_rep p m -> (vidx l < length m)%nat ->
  exists p', pa_assign p l = Ret p' /\ pa_rep p' (upd m (vidx l) (Some (N.odd l))).
Proof.
  intros [HL H] Hl. unfold pa_assign. rewrite vset_lt by lia. eexists; split; [reflexivity|].
  split; [rewrite !upd_length; auto|].
  intros i o. rewrite !upd_nth, HL. destruct (Nat.eqb_spec (vidx l) i); auto.
  destruct (Nat.ltb_spec (vidx l) (length m)); [|lia]. intro E. inv E. f_equal.
  simpl. f_equal. replace (N.of_nat (vidx l)) with (l/2) by (rewrite vidx_div; lia).
  apply lit_mklit.
Qed.

Lemma pa_unassign_rep p m v : pa_rep p m -> (N.to_nat v < length m)%nat ->
  exists p', pa_unassign p v = Ret p' /\ pa_rep p' (upd m (N.to_nat v) None).
Proof.
  intros [HL H] Hl. unfold pa_unassign. rewrite vset_lt by lia. eexists; split; [reflexivity|].
  split; [rewrite !upd_length; auto|].
  intros i o. rewrite !upd_nth, HL. destruct (Nat.eqb_spec (N.to_nat v) i); auto.
  destruct (Nat.ltb_spec (N.to_nat v) (length m)); [|lia]. intro E. inv E.
  simpl. rewrite N2Nat.id. reflexivity.
Qed.

Lemma pa_resize_rep p m n : pa_rep p m -> pa_rep (pa_resize p n) (vresize m n None).
Proof.
  intros [HL H]. unfold pa_resize. split.
  - rewrite vresize_length, firstn_length, app_length, map_length, seq_length. lia.
  - intros i o Hm. assert (Hi : (i < n)%nat).
    { rewrite <- (vresize_length m n None). apply nth_error_Some. congruence. }
    rewrite vresize_nth in Hm by auto. rewrite nth_error_firstn.
    destruct (Nat.ltb_spec i n); [|lia].
    destruct (nth_error m i) eqn:E.
    + inv Hm. rewrite nth_error_app1.
      * apply H; auto.
      * rewrite HL. apply nth_error_Some. congruence.
    + inv Hm. apply nth_error_None in E. rewrite nth_error_app2 by lia.
      rewrite nth_error_map.
      rewrite nth_error_nth' with (d := O) by (rewrite seq_length; lia).
      rewrite seq_nth by lia. simpl. do 2 f_equal. lia.
Qed.

Lemma pa_oob p l : (length p <= vidx l)%nat ->
  pa_is_true p l = Panic PBounds /\ pa_is_false p l = Panic PBounds /\
  pa_value p l = Panic PBounds /\ pa_assign p l = Panic PBounds.
Proof.
  intro H. apply nth_error_None in H as H'. unfold pa_is_true, pa_is_false, pa_value, pa_assign, vget, vset.
  rewrite H'. destruct (Nat.ltb_spec (vidx l) (length p)); [lia|]. auto.
Qed.

(** ** Histories *)

Definition pa_abs (m : list (option bool)) (n : nat) (f : N -> option bool) : Prop :=
  length m = n /\ forall v, (N.to_nat v < n)%nat -> nth_error m (N.to_nat v) = Some (f v).

Lemma pa_exec_ok ops :
  match amap_exec ops with
  | None => pa_exec ops = Panic PBounds
  | Some (n, f) => exists p m, pa_exec ops = Ret p /\ pa_rep p m /\ pa_abs m n f
  end.
Proof.
  induction ops as [|o ops IH] using rev_ind.
  - simpl. exists [], []. repeat split; auto.
    + intros i o H. destruct i; discriminate.
    + simpl. lia.
  - unfold amap_exec, pa_exec in *. rewrite fold_left_app, foldM_app. cbn [fold_left foldM].
    destruct (fold_left amap1 ops _) as [[n f]|]; cbn [amap1].
    2:{ rewrite IH. reflexivity. }
    destruct IH as (p & m & -> & Hr & HL & Hf). cbn [bind].
    destruct o as [k|l|u]; cbn [pa_exec1].
    + simpl. exists (pa_resize p k), (vresize m k None). split; auto. split; [apply pa_resize_rep; auto|].
      split; [apply vresize_length|]. intros v Hv. rewrite vresize_nth by auto. f_equal.
      destruct (Nat.ltb_spec (N.to_nat v) n).
      * destruct (Nat.ltb_spec (N.to_nat v) k); [|lia]. simpl. rewrite Hf by auto. auto.
      * simpl. destruct (nth_error m (N.to_nat v)) eqn:E; auto.
        assert (nth_error m (N.to_nat v) <> None) by congruence. apply nth_error_Some in H0. lia.
    + destruct (Nat.ltb_spec (N.to_nat (l / 2)) n).
      * destruct (pa_assign_rep p m l Hr) as (p' & -> & Hr').
        { rewrite vidx_div. lia. }
        simpl. exists p', (upd m (vidx l) (Some (N.odd l))). split; auto. split; auto.
        split; [rewrite upd_length; auto|]. intros v Hv. rewrite upd_nth, vidx_div.
        destruct (Nat.eqb_spec (N.to_nat (l / 2)) (N.to_nat v)).
        -- assert (v = l / 2) by lia. destruct (Nat.ltb_spec (N.to_nat (l/2)) (length m)); [|lia].
           destruct (N.eqb_spec v (l / 2)); [auto|lia].
        -- destruct (N.eqb_spec v (l / 2)); [lia|]. auto.
      * simpl. unfold pa_assign, vset. rewrite vidx_div.
        destruct Hr as [HL' _]. destruct (Nat.ltb_spec (N.to_nat (l/2)) (length p)); [lia|]. reflexivity.
    + destruct (Nat.ltb_spec (N.to_nat u) n).
      * destruct (pa_unassign_rep p m u Hr) as (p' & -> & Hr'); [lia|].
        simpl. exists p', (upd m (N.to_nat u) None). split; auto. split; auto.
        split; [rewrite upd_length; auto|]. intros v Hv. rewrite upd_nth.
        destruct (Nat.eqb_spec (N.to_nat u) (N.to_nat v)).
        -- assert (v = u) by lia. destruct (Nat.ltb_spec (N.to_nat u) (length m)); [|lia].
           destruct (N.eqb_spec v u); [auto|lia].
        -- destruct (N.eqb_spec v u); [lia|]. auto.
      * simpl. unfold pa_unassign, vset. destruct Hr as [HL' _].
        destruct (Nat.ltb_spec (N.to_nat u) (length p)); [lia|]. reflexivity.
Qed.

Lemma ob_eqb_olit l o b : ob_eqb (olit l o) (Some b) = match o with Some c => Bool.eqb c (Bool.eqb b (N.odd l)) | None => false end.
Proof. unfold olit. destruct o as [[]|], b, (N.odd l); reflexivity. Qed.
