(** Bit-level lemmas for the generated bit field accessors. *)
From Coq Require Import NArith List Bool Arith Lia ZifyN ZifyNat ZifyBool.
From Verif Require Import Model_Base Model_Header Model_Bitfield Proof_Base Proof_Header.
Import ListNotations.
Local Open Scope N_scope.

Lemma as_bits_bit b x i : N.testbit (as_bits b x) i = (i <? b) && N.testbit x i.
Proof.
  unfold as_bits. destruct (N.ltb_spec i b); [apply N.mod_pow2_bits_low|apply N.mod_pow2_bits_high]; auto.
Qed.
Lemma shl_bit b x n i : N.testbit (shl b x n) i = (i <? b) && ((n <=? i) && N.testbit x (i - n)).
Proof. unfold shl. rewrite as_bits_bit, shiftl_bit. reflexivity. Qed.
Lemma not_bits_bit b x i : N.testbit (not_bits b x) i = xorb (N.testbit x i) (i <? b).
Proof. unfold not_bits. rewrite N.lxor_spec, ones_bit. reflexivity. Qed.
Lemma mask_bit w i : w < 128 -> N.testbit (mask_value w) i = (i <? w).
Proof.
  intro H. unfold mask_value. rewrite N.shiftr_spec by lia. rewrite ones_bit.
  destruct (N.ltb_spec i w), (N.ltb_spec (i + (128 - w)) 128); auto; lia.
Qed.
Lemma mask_eq w : w < 128 -> mask_value w = 2 ^ w - 1.
Proof. intro H. replace (2 ^ w - 1) with (N.ones w) by (rewrite N.ones_equiv; lia). apply N.bits_inj. intro i. rewrite mask_bit, ones_bit by auto. reflexivity. Qed.
Lemma as_bits_lt b x : as_bits b x < 2 ^ b.
Proof. apply N.mod_lt, N.pow_nonzero. lia. Qed.
Lemma as_bits_id b x : x < 2 ^ b -> as_bits b x = x.
Proof. apply N.mod_small. Qed.

(** Accessors that fit. *)
Definition fits (B : N) (a : accessor) : Prop :=
  1 <= ac_width a /\ ac_width a < 128 /\ ac_offset a + ac_width a <= B /\ (ac_ty a = TBool -> ac_width a = 1 /\ ac_clamp a = false).
Definition stored (a : accessor) (v : N) : N :=
  if ac_clamp a then N.min v (2 ^ ac_width a - 1) else v mod 2 ^ ac_width a.

Lemma pow_pos n : 0 < 2 ^ n.
Proof. apply N.neq_0_lt_0, N.pow_nonzero. lia. Qed.
Lemma stored_lt a v : stored a v < 2 ^ ac_width a.
Proof. unfold stored. destruct (ac_clamp a); [pose proof (pow_pos (ac_width a)); lia|apply N.mod_lt, N.pow_nonzero; lia]. Qed.

Lemma setter_bit B a x v i : fits B a -> x < 2 ^ B -> v < 2 ^ ty_bits (ac_ty a) ->
  N.testbit (bf_setter B a x v) i =
  if (ac_offset a <=? i) && (i <? ac_offset a + ac_width a) then N.testbit (stored a v) (i - ac_offset a) else N.testbit x i.
Proof.
  intros (W1 & W2 & W3 & _) Hx Hv. unfold bf_setter. pose proof (stored_lt a v) as SL. set (o := ac_offset a) in *. set (w := ac_width a) in *.
  assert (K : N.testbit (N.land x (not_bits B (shl B (as_bits B (mask_value w)) o))) i = if (o <=? i) && (i <? o + w) then false else N.testbit x i).
  { rewrite N.land_spec, not_bits_bit, shl_bit, as_bits_bit, mask_bit by auto.
    destruct (N.ltb_spec i B).
    - destruct (N.leb_spec o i); cbn [andb].
      + destruct (N.ltb_spec (i - o) B); [|lia]. destruct (N.ltb_spec (i - o) w), (N.ltb_spec i (o + w)); try lia; cbn; try apply andb_false_r; apply andb_true_r.
      + apply andb_true_r.
    - rewrite (testbit_high x B) by auto. cbn [andb]. destruct ((o <=? i) && (i <? o + w)); reflexivity. }
  assert (Z : forall y, y = stored a v -> N.testbit (shl B (as_bits B y) o) i = if (o <=? i) && (i <? o + w) then N.testbit (stored a v) (i - o) else false).
  { intros y ->. rewrite shl_bit, as_bits_bit. destruct (N.leb_spec o i); cbn [andb]; [|apply andb_false_r].
    destruct (N.ltb_spec i (o + w)).
    - destruct (N.ltb_spec i B); [|lia]. destruct (N.ltb_spec (i - o) B); [|lia]. reflexivity.
    - rewrite (testbit_high (stored a v) w) by (auto; lia). rewrite !andb_false_r. reflexivity. }
  destruct (ac_clamp a) eqn:C.
  - rewrite N.lor_spec, K, (Z (N.min v (as_bits (ty_bits (ac_ty a)) (mask_value w)))).
    + destruct (_ && _); [reflexivity|apply orb_false_r].
    + unfold stored. rewrite C. fold w. rewrite mask_eq by auto. unfold as_bits. set (t := ty_bits (ac_ty a)) in *.
      destruct (N.le_gt_cases w t) as [G|G].
      * rewrite N.mod_small; auto. pose proof (N.pow_le_mono_r 2 w t). pose proof (pow_pos w). lia.
      * replace ((2 ^ w - 1) mod 2 ^ t) with (2 ^ t - 1).
        { pose proof (N.pow_le_mono_r 2 t w). lia. }
        { symmetry. replace w with (t + (w - t)) by lia. rewrite N.pow_add_r. pose proof (pow_pos t). pose proof (pow_pos (w - t)).
          symmetry. apply (N.mod_unique _ _ (2 ^ (w - t) - 1)); nia. }
  - rewrite N.lor_spec, K. replace (shl B (N.land (as_bits B v) (as_bits B (mask_value w))) o) with (shl B (as_bits B (N.land v (mask_value w))) o).
    + rewrite (Z (N.land v (mask_value w))); [destruct (_ && _); [reflexivity|apply orb_false_r]|].
      unfold stored. rewrite C. fold w. apply N.bits_inj. intro j. rewrite N.land_spec, mask_bit by auto. fold (as_bits w v). rewrite as_bits_bit. apply andb_comm.
    + f_equal. apply N.bits_inj. intro j. rewrite N.land_spec, !as_bits_bit, N.land_spec. destruct (j <? B); auto.
Qed.

Lemma land_bit_zero x B o : o < B -> (N.land x (shl B 1 o) =? 0) = negb (N.testbit x o).
Proof.
  intro Ho. rewrite <- hw_bit_spec. unfold hw_bit. rewrite negb_involutive. f_equal. f_equal. apply N.bits_inj. intro i. rewrite shl_bit, shiftl_bit.
  destruct (N.ltb_spec i B); auto. destruct (N.leb_spec o i); cbn [andb]; auto. rewrite (testbit_high 1 1); auto; lia.
Qed.
Lemma getter_value B a x : fits B a -> bf_getter B a x = as_bits (ty_bits (ac_ty a)) (as_bits (ac_width a) (N.shiftr x (ac_offset a))) \/ ac_width a = 1 /\ bf_getter B a x = N.b2n (N.testbit x (ac_offset a)).
Proof.
  intros (W1 & W2 & W3 & _). unfold bf_getter. destruct (N.eqb_spec (ac_width a) 1) as [E|E].
  - right. split; auto. rewrite land_bit_zero by lia. destruct (N.testbit x (ac_offset a)); reflexivity.
  - left. f_equal. apply N.bits_inj. intro i. rewrite N.land_spec, !as_bits_bit, mask_bit by auto. destruct (N.ltb_spec i B), (N.ltb_spec i (ac_width a)); try lia; cbn [andb]; try apply andb_true_r; apply andb_false_r.
Qed.
Lemma getter_ext B a x y : fits B a -> (forall i, i < ac_width a -> N.testbit x (ac_offset a + i) = N.testbit y (ac_offset a + i)) -> bf_getter B a x = bf_getter B a y.
Proof.
  intros F H. assert (X : as_bits (ac_width a) (N.shiftr x (ac_offset a)) = as_bits (ac_width a) (N.shiftr y (ac_offset a))).
  { apply N.bits_inj. intro i. rewrite !as_bits_bit, !N.shiftr_spec by lia. destruct (N.ltb_spec i (ac_width a)); auto. cbn [andb]. rewrite !(N.add_comm i). auto. }
  unfold bf_getter. destruct F as (W1 & W2 & W3 & _). destruct (N.eqb_spec (ac_width a) 1) as [E|E].
  - rewrite !land_bit_zero by lia. specialize (H 0 ltac:(lia)). rewrite N.add_0_r in H. rewrite H. reflexivity.
  - f_equal. apply N.bits_inj. intro i. rewrite !N.land_spec, !as_bits_bit, mask_bit, !N.shiftr_spec by (auto; lia).
    destruct (N.ltb_spec i (ac_width a)); [|rewrite !andb_false_r; reflexivity]. rewrite !(N.add_comm i). rewrite H by auto. reflexivity.
Qed.
(** Reading a field that fits the accessor's type. *)
Lemma getter_field B a x : fits B a -> 1 <= ty_bits (ac_ty a) -> bf_getter B a x = (x / 2 ^ ac_offset a) mod 2 ^ N.min (ac_width a) (ty_bits (ac_ty a)).
Proof.
  intros F T. destruct (getter_value B a x F) as [->|[E ->]].
  - rewrite N.shiftr_div_pow2. apply N.bits_inj. intro i. rewrite !as_bits_bit. fold (as_bits (N.min (ac_width a) (ty_bits (ac_ty a))) (x / 2 ^ ac_offset a)). rewrite as_bits_bit.
    destruct (N.ltb_spec i (ty_bits (ac_ty a))), (N.ltb_spec i (ac_width a)), (N.ltb_spec i (N.min (ac_width a) (ty_bits (ac_ty a)))); try lia; reflexivity.
  - rewrite E. replace (N.min 1 (ty_bits (ac_ty a))) with 1 by lia. rewrite N.pow_1_r. rewrite <- N.shiftr_div_pow2. rewrite <- N.bit0_mod, N.shiftr_spec by lia. rewrite N.add_0_l. reflexivity.
Qed.

(** The declared layout. *)
Fixpoint starts (o : N) (ds : list bf_decl) : list N :=
  match ds with [] => [] | d :: r => o :: starts (o + d_width d) r end.
Definition total (ds : list bf_decl) : N := fold_right (fun d n => d_width d + n) 0 ds.

Lemma derive_loop_some ds : forall o acs t, derive_loop ds o = Some (acs, t) ->
  t = o + total ds /\ length acs = length ds /\
  (forall d, In d ds -> 1 <= d_width d /\ d_width d < 128 /\ compiles d = true) /\
  forall i a, nth_error acs i = Some (Some a) -> exists d, nth_error ds i = Some d /\ d_access d = Some (ac_ty a) /\ ac_width a = d_width d /\ ac_clamp a = d_clamp d /\
    ac_offset a = o + total (firstn i ds).
Proof.
  induction ds as [|d ds IH]; intros o acs t E; cbn [derive_loop] in E.
  - inversion E; subst. cbn. repeat split; auto; try lia; try contradiction. intros [|i] a; discriminate.
  - destruct (N.leb_spec 1 (d_width d)); [|discriminate]. destruct (N.ltb_spec (d_width d) 128); [|discriminate]. cbn [andb] in E.
    destruct (compiles d) eqn:C; [|discriminate]. destruct (derive_loop ds (o + d_width d)) as [[acs1 t1]|] eqn:E1; [|discriminate]. inversion E; subst.
    destruct (IH _ _ _ E1) as (I1 & I2 & I3 & I4). cbn [total fold_right] in *. fold (total ds) in *. split; [lia|]. split; [cbn [length]; lia|]. split.
    { intros x [<-|Hx]; auto. }
    intros [|i] a Ha; cbn [nth_error firstn] in *.
    + exists d. split; auto. destruct (d_access d) as [ty|]; cbn in Ha; [|discriminate]. inversion Ha; subst. cbn. split; [reflexivity|]. repeat split; lia.
    + destruct (I4 i a Ha) as (d' & J1 & J2 & J3 & J4 & J5). exists d'. repeat split; auto. rewrite J5. cbn [fold_right total]. fold (total (firstn i ds)). lia.
Qed.
Lemma derive_loop_complete ds : forall o, (forall d, In d ds -> 1 <= d_width d /\ d_width d < 128 /\ compiles d = true) -> exists acs, derive_loop ds o = Some (acs, o + total ds).
Proof.
  induction ds as [|d ds IH]; intros o H; cbn [derive_loop].
  - exists []. cbn. rewrite N.add_0_r. reflexivity.
  - destruct (H d (or_introl eq_refl)) as (W1 & W2 & C). destruct (N.leb_spec 1 (d_width d)); [|lia]. destruct (N.ltb_spec (d_width d) 128); [|lia]. rewrite C. cbn [andb].
    destruct (IH (o + d_width d)) as (acs & ->); [intros; apply H; right; auto|]. eexists. f_equal. f_equal. cbn. fold (total ds). lia.
Qed.
Lemma total_app ds1 ds2 : total (ds1 ++ ds2) = total ds1 + total ds2.
Proof. induction ds1; cbn; auto. fold (total (ds1 ++ ds2)) (total ds1). rewrite IHds1. lia. Qed.
Lemma total_firstn i ds d : nth_error ds i = Some d -> total (firstn (S i) ds) = total (firstn i ds) + d_width d.
Proof.
  revert i. induction ds as [|e ds IH]; intros [|i] H; try discriminate; cbn [firstn].
  - cbn in *. inversion H. subst. cbn. lia.
  - change (total (e :: firstn (S i) ds) = total (e :: firstn i ds) + d_width d). cbn [total fold_right]. fold (total (firstn (S i) ds)) (total (firstn i ds)). rewrite (IH i H). lia.
Qed.
Lemma total_firstn_mono i j ds : (i <= j)%nat -> total (firstn i ds) <= total (firstn j ds).
Proof.
  intro H. replace (firstn i ds) with (firstn i (firstn j ds)) by (rewrite firstn_firstn; f_equal; lia).
  rewrite <- (firstn_skipn i (firstn j ds)) at 2. rewrite total_app. lia.
Qed.
Lemma total_firstn_le i ds : total (firstn i ds) <= total ds.
Proof. rewrite <- (firstn_skipn i ds) at 2. rewrite total_app. lia. Qed.
Lemma derive_total B ds acs : derive_bitfield B ds = Some acs -> derive_loop ds 0 = Some (acs, total ds) /\ total ds <= B.
Proof.
  unfold derive_bitfield. intro E. destruct (derive_loop ds 0) as [[acs1 t]|] eqn:E1; [|discriminate].
  pose proof (derive_loop_some _ _ _ _ E1) as (T & _). rewrite N.add_0_l in T. subst t.
  destruct (N.ltb_spec 0 (total ds)) as [G|G].
  - destruct (N.ltb_spec (total ds - 1) B); [|discriminate]. inversion E; subst. split; auto. lia.
  - inversion E; subst. split; auto. lia.
Qed.
Lemma derive_fits B ds acs i a : derive_bitfield B ds = Some acs -> nth_error acs i = Some (Some a) ->
  fits B a /\ ac_offset a = total (firstn i ds) /\ exists d, nth_error ds i = Some d /\ ac_width a = d_width d /\ ac_clamp a = d_clamp d /\ d_access d = Some (ac_ty a).
Proof.
  intros E Ha. destruct (derive_total _ _ _ E) as [E1 T]. destruct (derive_loop_some _ _ _ _ E1) as (_ & _ & H3 & H4).
  destruct (H4 i a Ha) as (d & J1 & J2 & J3 & J4 & J5). rewrite N.add_0_l in J5. split; [|split; auto; exists d; auto].
  destruct (H3 d) as (W1 & W2 & C); [eapply nth_error_In; eauto|]. unfold fits. rewrite J3, J4, J5. split; auto. split; auto.
  pose proof (total_firstn _ _ _ J1). pose proof (total_firstn_le (S i) ds). split; [lia|]. intro Ty. unfold compiles in C. rewrite J2, Ty in C.
  apply andb_true_iff in C as [C1 C2]. apply N.eqb_eq in C1. destruct (d_clamp d); [discriminate|]. auto.
Qed.
(** Two fields do not overlap. *)
Lemma derive_disjoint B ds acs i j a b : derive_bitfield B ds = Some acs -> nth_error acs i = Some (Some a) -> nth_error acs j = Some (Some b) -> i <> j ->
  ac_offset a + ac_width a <= ac_offset b \/ ac_offset b + ac_width b <= ac_offset a.
Proof.
  intros E Ha Hb N. destruct (derive_fits _ _ _ _ _ E Ha) as (_ & Oa & d & Da & Wa & _). destruct (derive_fits _ _ _ _ _ E Hb) as (_ & Ob & e & De & We & _).
  rewrite Oa, Ob, Wa, We, <- (total_firstn _ _ _ Da), <- (total_firstn _ _ _ De).
  destruct (Nat.lt_ge_cases i j); [left|right]; apply total_firstn_mono; lia.
Qed.
