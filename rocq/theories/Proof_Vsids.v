(** VSIDS: activities and the increment stay finite, bumps do not decrease,
    rescaling keeps the order, and the heap stays ordered. *)
From Coq Require Import NArith ZArith List Bool Arith Floats.SpecFloat Reals Lia Lra Psatz ZifyN ZifyNat ZifyBool.
From Flocq Require Import Core.Core IEEE754.BinarySingleNaN.
From Verif Require Import Model_Base Model_Lit Model_PartialAssignment Model_Heap Model_Vsids Proof_Base Proof_Heap Drivers_Vsids Proof_Float.
Import ListNotations.
Local Open Scope R_scope.

(** ** Constants *)
Definition LIM := val RESCALE_LIMIT.
Definition FAC := val RESCALE_FACTOR.
Definition DEC := val INVERSE_DECAY.

Lemma lim_nn : nn RESCALE_LIMIT.
Proof. apply nn_iff. vm_compute. auto. Qed.
Lemma fac_nn : nn RESCALE_FACTOR.
Proof. apply nn_iff. vm_compute. auto. Qed.
Lemma dec_nn : nn INVERSE_DECAY.
Proof. apply nn_iff. vm_compute. auto. Qed.
Lemma one_nn : nn F32_ONE.
Proof. apply nn_iff. vm_compute. auto. Qed.

Lemma val_bounds s m e a b : s = false -> (0 <= a - e)%Z -> (0 <= b - e)%Z -> (2 ^ (a - e) <= Z.pos m <= 2 ^ (b - e))%Z ->
  e2 a <= val (S754_finite s m e) <= e2 b.
Proof.
  intros -> Ha Hb [H1 H2]. unfold val. cbn [SF2R cond_Zopp]. unfold F2R. cbn [Fnum Fexp].
  assert (E : forall k, (0 <= k - e)%Z -> e2 k = IZR (2 ^ (k - e)) * e2 e).
  { intros k Hk. rewrite (IZR_Zpower radix2) by auto. rewrite <- bpow_plus. f_equal. lia. }
  rewrite (E a), (E b) by auto. pose proof (bpow_gt_0 radix2 e).
  split; apply Rmult_le_compat_r; try lra; apply IZR_le; auto.
Qed.

Lemma lim_bounds : e2 123 <= LIM <= e2 124.
Proof. unfold LIM. replace RESCALE_LIMIT with (S754_finite false 16777215 100) by (vm_compute; reflexivity). apply val_bounds; [reflexivity|lia|lia|split; vm_compute; discriminate]. Qed.
Lemma fac_bounds : e2 (-124) <= FAC <= e2 (-123).
Proof. unfold FAC. replace RESCALE_FACTOR with (S754_finite false 8388609 (-147)) by (vm_compute; reflexivity). apply val_bounds; [reflexivity|lia|lia|split; vm_compute; discriminate]. Qed.
Lemma dec_bounds : e2 0 <= DEC <= e2 1.
Proof. unfold DEC. remember INVERSE_DECAY as f eqn:E. vm_compute in E. subst f. apply val_bounds; [reflexivity|lia|lia|split; vm_compute; discriminate]. Qed.
Lemma one_val : val F32_ONE = 1.
Proof.
  assert (H : e2 0 <= val F32_ONE <= e2 0).
  { remember F32_ONE as f eqn:E. vm_compute in E. subst f. apply val_bounds; [reflexivity|lia|lia|split; vm_compute; discriminate]. }
  change (e2 0) with 1 in H. lra.
Qed.

(** ** Bumping one activity *)
Lemma fmt_scale x k : (0 <= k)%Z -> generic_format radix2 fx x -> generic_format radix2 fx (x * e2 k).
Proof.
  intros Hk H. destruct (Req_dec x 0) as [->|Hx]; [rewrite Rmult_0_l; apply generic_format_0|].
  apply generic_format_FLT. apply FLT_format_generic in H; auto with typeclass_instances. destruct H as [[m e] E M L].
  exists (Float radix2 m (e + k)); cbn [Fnum Fexp] in *; auto; [|lia].
  rewrite E. unfold F2R. cbn [Fnum Fexp]. rewrite bpow_plus. ring.
Qed.

(** Adding the increment to an activity of at most 2^26 times the increment
    gives such an activity again. *)
Lemma add_absorb a i : 0 <= a -> e2 (-30) <= i -> generic_format radix2 fx i -> a <= e2 26 * i -> rnd (a + i) <= e2 26 * i.
Proof.
  intros Ha Hi Fi Hle. set (T := e2 26 * i) in *. pose proof (bpow_gt_0 radix2 (-30)) as P30.
  assert (Ti : 0 < T) by (unfold T; pose proof (bpow_gt_0 radix2 26); nra).
  assert (FT : generic_format radix2 fx T) by (unfold T; rewrite Rmult_comm; apply fmt_scale; auto; lia).
  apply Rle_trans with (rnd (T + i)); [apply rnd_mono; lra|].
  apply round_N_le_midp; auto with typeclass_instances.
  rewrite succ_eq_pos by lra.
  assert (U : 2 * i < ulp radix2 fx T); [|lra].
  rewrite ulp_neq_0 by lra. unfold cexp.
  apply Rlt_le_trans with (e2 (mag radix2 T - 24)).
  2:{ apply bpow_le. unfold FLT_exp. lia. }
  pose proof (bpow_mag_gt radix2 T) as G. rewrite Rabs_pos_eq in G by lra.
  unfold Zminus. rewrite bpow_plus.
  assert (2 * i = T * e2 (-25)).
  { unfold T. rewrite (Rmult_comm (e2 26)), Rmult_assoc, <- bpow_plus. change (e2 (26 + -25)) with 2. ring. }
  assert (e2 (-25) < e2 (-24)) by (apply bpow_lt; lia). pose proof (bpow_gt_0 radix2 (-25)).
  change (- (24))%Z with (-24)%Z. rewrite H. apply Rmult_gt_0_lt_compat; lra.
Qed.

Lemma bump_bits_ok inc b : nn inc -> e2 (-30) <= val inc -> val inc <= LIM ->
  (b <= FIN)%N -> bval b <= LIM -> bval b <= e2 26 * val inc ->
  nn (f32_add (f32_from_bits b) inc) /\ (bump_bits inc b <= FIN)%N /\ (b <= bump_bits inc b)%N /\
  bval (bump_bits inc b) = val (f32_add (f32_from_bits b) inc) /\
  bval (bump_bits inc b) <= e2 125 /\ bval (bump_bits inc b) <= e2 26 * val inc.
Proof.
  intros Hi Hlo Hhi Hb Hbl Hbr. pose proof lim_bounds as [_ L]. pose proof (from_bits_nn b Hb) as Nb.
  pose proof (val_nonneg _ Nb) as Pb. pose proof (val_nonneg _ Hi) as Pi. fold (bval b) in Pb.
  assert (S : bval b + val inc <= e2 125).
  { change 125%Z with (124 + 1)%Z. rewrite bpow_plus. change (e2 1) with 2. lra. }
  assert (e2 125 <= e2 127) by (apply bpow_le; lia).
  destruct (add_nn _ _ Nb Hi) as [A B]. { fold (bval b). lra. }
  fold (bval b) in B. split; auto. unfold bump_bits.
  assert (HF : (f32_to_bits (f32_add (f32_from_bits b) inc) <= FIN)%N) by (apply to_bits_fin; auto).
  split; auto. rewrite bval_le by auto. rewrite bval_to, B by auto. split.
  - rewrite <- (rnd_id (bval b)) at 1 by (apply val_fmt; auto). apply rnd_mono. lra.
  - split; auto. split; [apply rnd_bpow; auto; lia|]. apply add_absorb; auto. apply val_fmt; auto.
Qed.

(** ** Rescaling *)
Lemma rescale_one f : nn f -> val f <= e2 125 -> nn (f32_mul f RESCALE_FACTOR) /\ val (f32_mul f RESCALE_FACTOR) = rnd (val f * FAC) /\
  rnd (val f * FAC) <= e2 2.
Proof.
  intros Hf Hle. pose proof fac_bounds as [F1 F2]. pose proof (val_nonneg _ Hf). pose proof (bpow_gt_0 radix2 (-124)).
  assert (P : val f * FAC <= e2 2).
  { change 2%Z with (125 + -123)%Z. rewrite bpow_plus. apply Rmult_le_compat; lra. }
  assert (e2 2 <= e2 127) by (apply bpow_le; lia).
  destruct (mul_nn f RESCALE_FACTOR Hf fac_nn) as [A B]; [fold FAC; lra|]. split; auto. split; auto. apply rnd_bpow; auto. lia.
Qed.

Lemma rnd_scale x k : e2 (-126) <= x -> (0 <= k)%Z -> rnd (e2 k * x) = e2 k * rnd x.
Proof.
  intros Hx Hk. pose proof (bpow_gt_0 radix2 (-126)). assert (x <> 0) by lra.
  rewrite (Rmult_comm (e2 k) x). unfold round, F2R, scaled_mantissa, cexp. cbn [Fnum Fexp]. rewrite mag_mult_bpow by auto.
  assert (M : (-126 + 1 <= mag radix2 x)%Z).
  { apply mag_ge_bpow. rewrite Rabs_pos_eq by lra. replace (-126 + 1 - 1)%Z with (-126)%Z by lia. auto. }
  assert (E1 : FLT_exp (-149) 24 (mag radix2 x + k) = (mag radix2 x - 24 + k)%Z) by (unfold FLT_exp; lia).
  assert (E2 : FLT_exp (-149) 24 (mag radix2 x) = (mag radix2 x - 24)%Z) by (unfold FLT_exp; lia).
  rewrite E1, E2. set (m := (mag radix2 x - 24)%Z).
  replace (x * e2 k * e2 (- (m + k))) with (x * e2 (- m)).
  - rewrite bpow_plus. ring.
  - rewrite Rmult_assoc, <- bpow_plus. do 2 f_equal. lia.
Qed.

(** Rescaling keeps the ratio between activities and increment. *)
Lemma rescale_ratio a i : 0 <= a -> a <= e2 26 * i -> e2 97 <= i -> rnd (a * FAC) <= e2 26 * rnd (i * FAC) /\ e2 (-30) <= rnd (i * FAC).
Proof.
  intros Ha Hle Hi. pose proof fac_bounds as [F1 F2]. pose proof (bpow_gt_0 radix2 (-124)). pose proof (bpow_gt_0 radix2 97).
  assert (G : e2 (-27) <= i * FAC).
  { change (-27)%Z with (97 + -124)%Z. rewrite bpow_plus. apply Rmult_le_compat; lra. }
  assert (e2 (-126) <= e2 (-27)) by (apply bpow_le; lia).
  split.
  - rewrite <- rnd_scale by (lra || lia). apply rnd_mono. rewrite <- Rmult_assoc. apply Rmult_le_compat_r; lra.
  - rewrite <- (rnd_id (e2 (-30))) by (apply fmt_bpow; lia). apply rnd_mono. assert (e2 (-30) <= e2 (-27)) by (apply bpow_le; lia). lra.
Qed.

Lemma rescale_bits_ok b : (b <= FIN)%N -> bval b <= e2 125 ->
  (rescale_bits b <= FIN)%N /\ bval (rescale_bits b) = rnd (bval b * FAC) /\ bval (rescale_bits b) <= e2 2.
Proof.
  intros Hb Hle. destruct (rescale_one _ (from_bits_nn _ Hb) Hle) as (A & B & C). fold (bval b) in *.
  unfold rescale_bits. split; [apply to_bits_fin; auto|]. rewrite bval_to, B by auto. auto.
Qed.

Lemma rescale_bits_mono a b : (a <= b)%N -> (b <= FIN)%N -> bval b <= e2 125 -> (rescale_bits a <= rescale_bits b)%N.
Proof.
  intros Hab Hb Hle. assert (Ha : (a <= FIN)%N) by (etransitivity; eauto).
  assert (V : bval a <= bval b) by (apply bval_le; auto).
  destruct (rescale_bits_ok a Ha) as (A1 & A2 & _); [lra|]. destruct (rescale_bits_ok b Hb Hle) as (B1 & B2 & _).
  apply bval_le; auto. rewrite A2, B2. apply rnd_mono. pose proof fac_bounds as [F1 _]. pose proof (bpow_gt_0 radix2 (-124)).
  apply Rmult_le_compat_r; lra.
Qed.

(** ** The invariant *)
Definition act_ok (top : R) (inc : spec_float) (b : N) : Prop := (b <= FIN)%N /\ bval b <= top /\ bval b <= e2 26 * val inc.

Record VInv (shrink : bool) (v : vsids) : Prop := {
  vi_nn : nn (vs_increment v);
  vi_lo : e2 (-30) <= val (vs_increment v);
  vi_hi : val (vs_increment v) <= LIM;
  vi_act : Forall (act_ok LIM (vs_increment v)) (h_values (vs_activity v));
  vi_hs : HS (vs_activity v);
  vi_ho : shrink = false -> HO (vs_activity v) }.

Lemma monotone_on_ok h f : HS h -> (forall a b, (a <= b)%N -> In b (h_values h) -> (f a <= f b)%N) -> HO h -> HO (apply_monotone h f).
Proof.
  intros H Hf HOh p Hp1 Hp2. unfold hlen in Hp2. simpl in Hp2. fold (hlen h) in Hp2.
  pose proof (par_lt p Hp1).
  assert (V : forall q, (q < hlen h)%nat -> hval (mkHeap (map f (h_values h)) (h_pos h) (h_heap h)) q = f (hval h q)).
  { intros q Hq. unfold hval, idx. cbn [h_values h_heap].
    pose proof (hs_idx_lt h q H Hq) as Hlt. unfold idx in Hlt.
    apply nth_error_nth. rewrite nth_error_map. rewrite (nth_error_nth' _ 0%N Hlt). reflexivity. }
  unfold apply_monotone. rewrite !V by lia. apply Hf; [apply HOh; auto|]. unfold hval. apply nth_In. apply hs_idx_lt; auto. lia.
Qed.

Lemma rescale_inv g h inc : HS h -> (g = false -> HO h) -> nn inc -> e2 97 <= val inc <= e2 125 -> Forall (act_ok (e2 125) inc) (h_values h) ->
  VInv g (vsids_rescale (mkVsids h inc)).
Proof.
  intros A B C [D1 D2] E. rewrite Forall_forall in E. pose proof lim_bounds as [L _].
  assert (e2 2 <= e2 123) by (apply bpow_le; lia). unfold vsids_rescale.
  destruct (rescale_one _ C D2) as (R1 & R2 & R3).
  constructor; cbn [vs_increment vs_activity]; auto.
  - rewrite R2. apply (rescale_ratio 0 (val inc)); auto; try lra. pose proof (bpow_gt_0 radix2 26). pose proof (bpow_gt_0 radix2 97). nra.
  - rewrite R2. lra.
  - unfold apply_monotone. cbn [h_values]. apply Forall_forall. intros x Hx. apply in_map_iff in Hx as (b & <- & Hb).
    destruct (E b Hb) as (E1 & E2 & E3). destruct (rescale_bits_ok b E1 E2) as (Q1 & Q2 & Q3). split; auto. split; [lra|].
    rewrite Q2, R2. apply rescale_ratio; auto. apply val_nonneg, from_bits_nn; auto.
  - apply (apply_monotone_ok h rescale_bits A).
  - intro Eg. apply monotone_on_ok; auto. intros a b Hab Hb. destruct (E b Hb) as (E1 & E2 & _). apply rescale_bits_mono; auto.
Qed.

Lemma VInv_empty g : VInv g vsids_empty.
Proof.
  pose proof lim_bounds as [L _]. constructor; cbn [vsids_empty vs_increment vs_activity]; rewrite ?one_val; auto using one_nn, HS_empty, HO_empty.
  - change 1 with (e2 0). apply bpow_le. lia.
  - apply Rle_trans with (e2 123); auto. change 1 with (e2 0). apply bpow_le. lia.
  - constructor.
Qed.

Lemma Forall_upd {A} (P : A -> Prop) l i x : Forall P l -> P x -> Forall P (upd l i x).
Proof.
  intros H Hx. revert i. induction H as [|y l Hy Hl IH]; intros [|i]; cbn; constructor; auto.
Qed.

Lemma VInv_bump g v l : VInv g v -> (vidx l < length (h_values (vs_activity v)))%nat ->
  exists v', bump_var v l = Ret v' /\ VInv g v' /\ (forall i, In i (h_heap (vs_activity v')) <-> In i (h_heap (vs_activity v))) /\
    length (h_values (vs_activity v')) = length (h_values (vs_activity v)).
Proof.
  intros H Hl. unfold bump_var. rewrite (vget_nth 0%N) by auto. cbn [bind].
  set (h := vs_activity v) in *. set (inc := vs_increment v) in *. set (b := nth (vidx l) (h_values h) 0%N).
  pose proof (vi_act _ _ H) as HA. fold h inc in HA. rewrite Forall_forall in HA.
  assert (Hb : In b (h_values h)) by (apply nth_In; auto). destruct (HA b Hb) as (B1 & B2 & B3).
  destruct (bump_bits_ok inc b (vi_nn _ _ H) (vi_lo _ _ H) (vi_hi _ _ H) B1 B2 B3) as (Q1 & Q2 & Q3 & Q4 & Q5 & Q6).
  destruct (increase_ok h (vidx l) (bump_bits inc) (vi_hs _ _ H) Hl) as (h' & E & I1 & I2 & I3 & I4).
  rewrite E. cbn [bind]. eexists. split; [reflexivity|]. assert (I5 : g = false -> HO h') by (intro Eg; apply I4; auto; apply (vi_ho _ _ H Eg)). fold b in I2.
  pose proof lim_bounds as [L1 L2]. assert (e2 124 <= e2 125) by (apply bpow_le; lia).
  destruct (SFltb RESCALE_LIMIT (f32_add (f32_from_bits b) inc)) eqn:Ec.
  - split; [|split; [exact I3|cbn; rewrite map_length, I2, upd_length; auto]].
    apply (ltb_val _ _ lim_nn Q1) in Ec. fold LIM in Ec. rewrite <- Q4 in Ec.
    apply rescale_inv; auto; [apply H| |].
    + split; [|pose proof (vi_hi _ _ H) as Hh; fold inc in Hh; lra]. apply Rmult_le_reg_l with (e2 26); [apply bpow_gt_0|].
      rewrite <- bpow_plus. change (26 + 97)%Z with 123%Z. lra.
    + rewrite I2. apply Forall_upd; [|repeat split; auto]. apply Forall_forall. intros x Hx. destruct (HA x Hx) as (X1 & X2 & X3). repeat split; auto. lra.
  - split; [|split; [exact I3|cbn; rewrite I2, upd_length; auto]].
    assert (Ev : bval (bump_bits inc b) <= LIM).
    { rewrite Q4. apply Rnot_lt_le. intro G. apply (ltb_val _ _ lim_nn Q1) in G. congruence. }
    constructor; cbn [vs_increment vs_activity]; auto; try apply H.
    rewrite I2. apply Forall_upd; [apply H|repeat split; auto].
Qed.

Lemma VInv_decay g v : VInv g v -> VInv g (vsids_decay v) /\ h_heap (vs_activity (vsids_decay v)) = h_heap (vs_activity v) /\
  length (h_values (vs_activity (vsids_decay v))) = length (h_values (vs_activity v)).
Proof.
  intro H. unfold vsids_decay. set (h := vs_activity v) in *. set (inc := vs_increment v) in *.
  pose proof lim_bounds as [L1 L2]. pose proof dec_bounds as [D1 D2]. pose proof (vi_hi _ _ H) as Hhi. fold inc in Hhi.
  pose proof (vi_lo _ _ H) as Hlo. fold inc in Hlo. pose proof (bpow_gt_0 radix2 (-30)).
  assert (P : val inc * DEC <= e2 125).
  { change 125%Z with (124 + 1)%Z. rewrite bpow_plus. change (e2 0) with 1 in D1. apply Rmult_le_compat; lra. }
  assert (e2 125 <= e2 127) by (apply bpow_le; lia).
  destruct (mul_nn inc INVERSE_DECAY (vi_nn _ _ H) dec_nn) as [A B]; [fold DEC; lra|]. fold DEC in B.
  set (inc' := f32_mul inc INVERSE_DECAY) in *.
  assert (G : val inc <= val inc').
  { rewrite B. rewrite <- (rnd_id (val inc)) at 1 by (apply val_fmt, H). apply rnd_mono. change (e2 0) with 1 in D1. nra. }
  assert (HI : val inc' <= e2 125) by (rewrite B; apply rnd_bpow; auto; lia).
  assert (HA : forall x, In x (h_values h) -> act_ok LIM inc' x).
  { intros x Hx. pose proof (vi_act _ _ H) as HA. rewrite Forall_forall in HA. destruct (HA x Hx) as (X1 & X2 & X3). repeat split; auto.
    fold inc in X3. pose proof (bpow_gt_0 radix2 26). nra. }
  split; [|destruct (SFltb _ _); cbn; rewrite ?map_length; auto].
  destruct (SFltb RESCALE_LIMIT inc') eqn:Ec.
  - apply (ltb_val _ _ lim_nn A) in Ec. fold LIM in Ec. apply rescale_inv; auto; try apply H.
    + split; auto. assert (e2 97 <= e2 123) by (apply bpow_le; lia). lra.
    + apply Forall_forall. intros x Hx. destruct (HA x Hx) as (X1 & X2 & X3). repeat split; auto.
      assert (e2 124 <= e2 125) by (apply bpow_le; lia). lra.
  - constructor; cbn [vs_increment vs_activity]; auto; try apply H; try lra.
    + apply Rnot_lt_le. intro Q. apply (ltb_val _ _ lim_nn A) in Q. congruence.
    + apply Forall_forall. exact HA.
Qed.

Lemma VInv_same_values g v h : VInv g v -> h_values h = h_values (vs_activity v) -> HS h -> (g = false -> HO h) ->
  VInv g (mkVsids h (vs_increment v)).
Proof. intros H E A B. constructor; cbn [vs_increment vs_activity]; auto; try apply H. rewrite E. apply H. Qed.

Lemma VInv_unassign g v l v' : VInv g v -> vsids_unassign v l = Ret v' -> VInv g v' /\ h_values (vs_activity v') = h_values (vs_activity v).
Proof.
  intros H E. unfold vsids_unassign in E. destruct (enqueue _ _) as [h| |] eqn:E1; cbn [bind] in E; try discriminate. inversion E; subst v'.
  assert (Hi : (vidx l < length (h_values (vs_activity v)))%nat).
  { unfold enqueue in E1. destruct (vget _ _) as [p| |] eqn:G in E1; cbn [bind] in E1; try discriminate.
    apply vget_ok in G. rewrite <- (hs_len _ (vi_hs _ _ H)). apply nth_error_Some. congruence. }
  destruct (enqueue_ok _ _ (vi_hs _ _ H) Hi) as (h' & E2 & A & B & C & D). assert (h' = h) by congruence. subst h'.
  split; auto. apply VInv_same_values; auto. intro Eg. apply D, (vi_ho _ _ H Eg).
Qed.

Lemma pop_loop_same fuel : forall h vals o h', HS h -> pop_loop fuel h vals = Ret (o, h') ->
  HS h' /\ h_values h' = h_values h /\ (HO h -> HO h').
Proof.
  induction fuel as [|f IH]; intros h vals o h' H E; cbn [pop_loop] in E; [discriminate|].
  pose proof (pop_max_ok h H) as G. destruct (h_heap h) as [|v r]; [rewrite G in E; cbn [bind] in E; inversion E; subst; auto|].
  destruct G as (h1 & E1 & (A1 & B1 & _) & C1). rewrite E1 in E. cbn [bind] in E.
  assert (Hho : HO h -> HO h1) by (intro Ho; apply C1; auto).
  destruct (pa_is_assigned _ _) as [b| |]; cbn [bind] in E; try discriminate. destruct b; cbn [negb] in E.
  - apply IH in E as (X & Y & Z); auto. split; auto. split; [congruence|auto].
  - inversion E; subst; auto.
Qed.

Lemma VInv_pop g v vals o v' : VInv g v -> pop_decision_var v vals = Ret (o, v') -> VInv g v' /\ h_values (vs_activity v') = h_values (vs_activity v).
Proof.
  intros H E. unfold pop_decision_var in E. destruct (pop_loop _ _ _) as [[o1 h]| |] eqn:E1; cbn [bind] in E; try discriminate.
  inversion E; subst. apply pop_loop_same in E1 as (A & B & C); [|apply H]. split; auto. apply VInv_same_values; auto.
  intro Eg. apply C, (vi_ho _ _ H Eg).
Qed.

Lemma bval_0 : bval 0 = 0.
Proof. reflexivity. Qed.

Lemma VInv_resize g v n v' : VInv g v -> (g = false -> length (h_values (vs_activity v)) <= n)%nat -> vsids_resize v n = Ret v' ->
  VInv g v' /\ h_values (vs_activity v') = vresize (h_values (vs_activity v)) n 0%N /\ vs_increment v' = vs_increment v.
Proof.
  intros H Hg E. unfold vsids_resize in E. destruct (heap_resize_enqueued _ _ _) as [h| |] eqn:E1; cbn [bind] in E; try discriminate.
  inversion E; subst v'. cbn [vs_activity vs_increment].
  assert (Hn : (N.of_nat n <= 4294967296)%N).
  { unfold heap_resize_enqueued, heap_resize in E1. destruct (N.leb_spec (N.of_nat n) 4294967296); auto. discriminate. }
  destruct (heap_resize_enqueued_ok _ n 0%N (vi_hs _ _ H) Hn) as (h' & E2 & A & B & C & D). assert (h' = h) by congruence. subst h'.
  split; auto. constructor; cbn [vs_increment vs_activity]; auto; try apply H; [|intro Eg; apply D; auto; apply (vi_ho _ _ H Eg)].
  rewrite B. apply Forall_forall. intros x Hx. pose proof (vi_act _ _ H) as HA. rewrite Forall_forall in HA.
  unfold vresize in Hx. apply in_app_or in Hx as [Hx|Hx].
  - apply HA. rewrite <- (firstn_skipn n). apply in_or_app; auto.
  - apply repeat_spec in Hx. subst x. unfold act_ok. rewrite bval_0. pose proof lim_bounds as [L _]. pose proof (bpow_gt_0 radix2 123).
    pose proof (bpow_gt_0 radix2 26). pose proof (vi_lo _ _ H). pose proof (bpow_gt_0 radix2 (-30)).
    split; [unfold FIN; lia|]. split; [lra|nra].
Qed.

Lemma vget_some {A} (v : list A) i x : vget v i = Ret x -> (i < length v)%nat.
Proof. intro H. apply vget_ok in H. apply nth_error_Some. congruence. Qed.

Lemma vhist_inv g v : vhist g v -> VInv g v.
Proof.
  induction 1 as [|v n v' H IH Hg E|v l v' H IH E|v H IH|v l v' H IH E|v vals o v' H IH E].
  - apply VInv_empty.
  - apply (VInv_resize g v n v'); auto.
  - assert (Hl : (vidx l < length (h_values (vs_activity v)))%nat).
    { unfold bump_var in E. destruct (vget _ _) as [b| |] eqn:G in E; try discriminate. apply (vget_some _ _ _ G). }
    destruct (VInv_bump g v l IH Hl) as (v1 & E1 & A & _). congruence.
  - apply VInv_decay; auto.
  - apply (VInv_unassign g v l v'); auto.
  - apply (VInv_pop g v vals o v'); auto.
Qed.
