(** C67: bit fields packed into a word do not interfere. *)
From Coq Require Import NArith List Bool Arith Lia ZifyN ZifyNat ZifyBool.
From Verif Require Import Model_Base Model_Header Model_Bitfield Proof_Base Proof_Header Proof_Bitfield.
Import ListNotations.
Local Open Scope N_scope.

(** The number of bits declared, and the position of the [i]-th declaration. *)
Definition declared_bits (ds : list bf_decl) : N := fold_right N.add 0 (map d_width ds).
Definition position (ds : list bf_decl) (i : nat) : N := declared_bits (firstn i ds).
Lemma declared_total ds : declared_bits ds = total ds.
Proof. induction ds as [|d ds IH]; auto. unfold declared_bits in *. cbn [map fold_right total]. rewrite IH. reflexivity. Qed.

(** A declaration is accepted exactly if its fields have 1 to 127 bits each, fit into
    the type of the word together, and boolean fields have one bit and no clamping. *)
Theorem bitfield_accepts (B : N) (ds : list bf_decl) :
  (exists acs, derive_bitfield B ds = Some acs) <->
  declared_bits ds <= B /\
  forall d, In d ds -> 1 <= d_width d <= 127 /\ (d_access d = Some TBool -> d_width d = 1 /\ d_clamp d = false).
Proof.
  rewrite declared_total. split.
  - intros [acs E]. destruct (derive_total _ _ _ E) as [E1 T]. split; auto. intros d Hd.
    destruct (derive_loop_some _ _ _ _ E1) as (_ & _ & H & _). destruct (H d Hd) as (W1 & W2 & C). split; [lia|].
    intro A. unfold compiles in C. rewrite A in C. apply andb_true_iff in C as [C1 C2]. apply N.eqb_eq in C1. destruct (d_clamp d); [discriminate|auto].
  - intros [T H]. destruct (derive_loop_complete ds 0) as [acs E].
    { intros d Hd. destruct (H d Hd) as [W A]. split; [lia|]. split; [lia|]. unfold compiles. destruct (d_access d) as [[|b]|]; auto.
      destruct A as [-> ->]; auto. }
    exists acs. unfold derive_bitfield. rewrite E, N.add_0_l. destruct (N.ltb_spec 0 (total ds)); auto. destruct (N.ltb_spec (total ds - 1) B); auto. lia.
Qed.

(** The number of bits of an accessor's type: [bool] has one. *)
Definition type_width (t : access_ty) (b : N) : Prop :=
  match t with TBool => b = 1 | TUint n => b = n end.
Lemma type_width_bits t b : type_width t b -> b = ty_bits t.
Proof. destruct t; auto. Qed.

(** Setting a field of an accepted declaration, for every word [x] and every value
    [v] of the field's type: the field reads as [v], saturated or truncated to the
    field's width; every other field reads as before; only the bits of the field
    change. *)
Theorem bitfield_set (B : N) ds acs i d t (b : N) a (x v : N) :
  derive_bitfield B ds = Some acs -> nth_error ds i = Some d -> nth_error acs i = Some (Some a) ->
  d_access d = Some t -> type_width t b ->
  x < 2 ^ B -> 1 <= b -> v < 2 ^ b ->
  let x' := bf_setter B a x v in
  x' < 2 ^ B /\
  bf_getter B a x' = (if d_clamp d then N.min v (2 ^ d_width d - 1) else v mod 2 ^ d_width d) /\
  (forall j b, nth_error acs j = Some (Some b) -> j <> i -> bf_getter B b x' = bf_getter B b x) /\
  (forall k, k < position ds i \/ position ds i + d_width d <= k -> N.testbit x' k = N.testbit x k).
Proof.
  intros E Hd Ha Ht Hb Hx T Hv x'. destruct (derive_fits _ _ _ _ _ E Ha) as (F & O & d' & D1 & D2 & D3 & D4). rewrite Hd in D1. inversion D1; subst d'. clear D1.
  rewrite Ht in D4. inversion D4; subst t. clear D4 Ht. rewrite (type_width_bits _ _ Hb) in *. clear b Hb.
  pose proof (fun k => setter_bit B a x v k F Hx Hv) as SB. fold x' in SB. unfold position. rewrite declared_total, <- O, <- D2.
  assert (Hx' : x' < 2 ^ B).
  { apply lt_pow2_bits. intros k Hk. rewrite SB. destruct F as (_ & _ & F & _). destruct (N.ltb_spec k (ac_offset a + ac_width a)); [lia|]. rewrite andb_false_r. apply (testbit_high x B); auto. }
  split; auto. split; [|split].
  - replace (if d_clamp d then N.min v (2 ^ ac_width a - 1) else v mod 2 ^ ac_width a) with (stored a v) by (unfold stored; rewrite D3; reflexivity).
    rewrite getter_field by auto. rewrite <- N.shiftr_div_pow2. pose proof (stored_lt a v) as SL.
    assert (SV : stored a v <= v). { unfold stored. destruct (ac_clamp a); [lia|]. apply N.mod_le. apply N.pow_nonzero. lia. }
    apply N.bits_inj. intro k. fold (as_bits (N.min (ac_width a) (ty_bits (ac_ty a))) (N.shiftr x' (ac_offset a))). rewrite as_bits_bit, N.shiftr_spec, SB by lia.
    destruct (N.ltb_spec k (N.min (ac_width a) (ty_bits (ac_ty a)))) as [G|G]; cbn [andb].
    + destruct (N.leb_spec (ac_offset a) (k + ac_offset a)); [|lia]. destruct (N.ltb_spec (k + ac_offset a) (ac_offset a + ac_width a)); [|lia]. cbn [andb]. f_equal. lia.
    + symmetry. destruct (N.le_gt_cases (ac_width a) k); [apply (testbit_high _ (ac_width a)); auto|]. apply (testbit_high _ (ty_bits (ac_ty a))); lia.
  - intros j b Hb N. destruct (derive_fits _ _ _ _ _ E Hb) as (Fb & _). apply getter_ext; auto. intros k Hk. rewrite SB.
    destruct (derive_disjoint _ _ _ _ _ _ _ E Ha Hb ltac:(auto)) as [G|G].
    + destruct (N.ltb_spec (ac_offset b + k) (ac_offset a + ac_width a)); [lia|]. rewrite andb_false_r. reflexivity.
    + destruct (N.leb_spec (ac_offset a) (ac_offset b + k)); [lia|]. reflexivity.
  - intros k Hk. rewrite SB. destruct (N.leb_spec (ac_offset a) k), (N.ltb_spec k (ac_offset a + ac_width a)); try reflexivity; lia.
Qed.

(** The words compare like their fields, the field declared last first, if every bit
    belongs to a field that fits its accessor's type. *)
Lemma field_split o w x : x / 2 ^ o = 2 ^ w * (x / 2 ^ (o + w)) + (x / 2 ^ o) mod 2 ^ w.
Proof. rewrite N.pow_add_r, <- N.div_div by (apply N.pow_nonzero; lia). apply N.div_mod. apply N.pow_nonzero. lia. Qed.
Lemma lt_digits W a b p q : a < W -> b < W -> (W * p + a < W * q + b <-> p < q \/ (p = q /\ a < b)).
Proof.
  intros Ha Hb. destruct (N.lt_trichotomy p q) as [G|[->|G]]; [|split; [lia|intros [?|[_ ?]]; lia]|].
  - assert (W * (p + 1) <= W * q) by (apply N.mul_le_mono_l; lia). split; [auto|lia].
  - assert (W * (q + 1) <= W * p) by (apply N.mul_le_mono_l; lia). split; [lia|intros [?|[? _]]; lia].
Qed.
Lemma eq_digits W a b p q : a < W -> b < W -> (W * p + a = W * q + b <-> p = q /\ a = b).
Proof.
  intros Ha Hb. destruct (N.lt_trichotomy p q) as [G|[->|G]]; [|split; [lia|intros [_ ->]; reflexivity]|].
  - assert (W * (p + 1) <= W * q) by (apply N.mul_le_mono_l; lia). split; [lia|intros [? _]; lia].
  - assert (W * (q + 1) <= W * p) by (apply N.mul_le_mono_l; lia). split; [lia|intros [? _]; lia].
Qed.
Lemma field_lt o w : forall x y, (x / 2 ^ o < y / 2 ^ o <->
  x / 2 ^ (o + w) < y / 2 ^ (o + w) \/ (x / 2 ^ (o + w) = y / 2 ^ (o + w) /\ (x / 2 ^ o) mod 2 ^ w < (y / 2 ^ o) mod 2 ^ w)).
Proof.
  intros x y. pose proof (field_split o w x) as Ex. pose proof (field_split o w y) as Ey.
  rewrite Ex, Ey at 1. apply lt_digits; apply N.mod_lt, N.pow_nonzero; lia.
Qed.
Lemma field_eq o w : forall x y, (x / 2 ^ o = y / 2 ^ o <->
  x / 2 ^ (o + w) = y / 2 ^ (o + w) /\ (x / 2 ^ o) mod 2 ^ w = (y / 2 ^ o) mod 2 ^ w).
Proof.
  intros x y. pose proof (field_split o w x) as Ex. pose proof (field_split o w y) as Ey.
  rewrite Ex, Ey at 1. apply eq_digits; apply N.mod_lt, N.pow_nonzero; lia.
Qed.
Definition field_at (o w x : N) : N := (x / 2 ^ o) mod 2 ^ w.
Lemma fields_eq ds : forall o x y, x < 2 ^ (o + total ds) -> y < 2 ^ (o + total ds) ->
  (x / 2 ^ o = y / 2 ^ o <-> forall k d, nth_error ds k = Some d -> field_at (o + total (firstn k ds)) (d_width d) x = field_at (o + total (firstn k ds)) (d_width d) y).
Proof.
  induction ds as [|d ds IH]; intros o x y Hx Hy; cbn [total fold_right] in *; try fold (total ds) in *.
  - split; [intros _ [|k]; discriminate|]. intros _. rewrite N.add_0_r in *. rewrite !N.div_small; auto.
  - rewrite (field_eq o (d_width d)), (IH (o + d_width d)) by (rewrite <- N.add_assoc; auto). split.
    + intros [H1 H2] [|k] e He; cbn [nth_error firstn total fold_right] in *.
      * inversion He; subst. rewrite N.add_0_r. exact H2.
      * fold (total (firstn k ds)). rewrite N.add_assoc. apply H1; auto.
    + intro H. split.
      * intros k e He. specialize (H (S k) e He). cbn [firstn total fold_right] in H. fold (total (firstn k ds)) in H. rewrite N.add_assoc in H. exact H.
      * specialize (H O d eq_refl). cbn [firstn total fold_right] in H. rewrite N.add_0_r in H. exact H.
Qed.
Lemma fields_lt ds : forall o x y, x < 2 ^ (o + total ds) -> y < 2 ^ (o + total ds) ->
  (x / 2 ^ o < y / 2 ^ o <-> exists j e, nth_error ds j = Some e /\
     field_at (o + total (firstn j ds)) (d_width e) x < field_at (o + total (firstn j ds)) (d_width e) y /\
     forall k d, nth_error ds k = Some d -> (j < k)%nat -> field_at (o + total (firstn k ds)) (d_width d) x = field_at (o + total (firstn k ds)) (d_width d) y).
Proof.
  induction ds as [|d ds IH]; intros o x y Hx Hy; cbn [total fold_right] in *; try fold (total ds) in *.
  - rewrite N.add_0_r in *. rewrite !N.div_small; auto. split; [lia|]. intros ([|j] & e & H & _); discriminate.
  - rewrite (field_lt o (d_width d)), (IH (o + d_width d)), (fields_eq ds (o + d_width d)) by (rewrite <- N.add_assoc; auto). split.
    + intros [(j & e & H1 & H2 & H3)|[H1 H2]].
      * exists (S j), e. split; auto. cbn [firstn total fold_right]. fold (total (firstn j ds)). rewrite N.add_assoc. split; auto.
        intros [|k] f Hf Hk; [lia|]. cbn [nth_error firstn total fold_right] in *. fold (total (firstn k ds)). rewrite N.add_assoc. apply H3; auto. lia.
      * exists O, d. split; auto. cbn [firstn total fold_right]. rewrite N.add_0_r. split; auto.
        intros [|k] f Hf Hk; [lia|]. cbn [nth_error firstn total fold_right] in *. fold (total (firstn k ds)). rewrite N.add_assoc. apply H1; auto.
    + intros ([|j] & e & H1 & H2 & H3); cbn [nth_error firstn total fold_right] in *.
      * right. inversion H1; subst. rewrite N.add_0_r in H2. split; auto.
        intros k f Hf. specialize (H3 (S k) f Hf ltac:(lia)). cbn [firstn total fold_right] in H3. fold (total (firstn k ds)) in H3. rewrite N.add_assoc in H3. exact H3.
      * left. exists j, e. fold (total (firstn j ds)) in *. rewrite N.add_assoc in H2. split; auto. split; auto.
        intros k f Hf Hk. specialize (H3 (S k) f Hf ltac:(lia)). cbn [firstn total fold_right] in H3. fold (total (firstn k ds)) in H3. rewrite N.add_assoc in H3. exact H3.
Qed.
Theorem bitfield_order (B : N) ds acs (x y : N) :
  derive_bitfield B ds = Some acs -> declared_bits ds = B ->
  (forall d, In d ds -> exists t b, d_access d = Some t /\ type_width t b /\ d_width d <= b) ->
  x < 2 ^ B -> y < 2 ^ B ->
  (x < y <-> exists j a, nth_error acs j = Some (Some a) /\ bf_getter B a x < bf_getter B a y /\
     forall k b, nth_error acs k = Some (Some b) -> (j < k)%nat -> bf_getter B b x = bf_getter B b y).
Proof.
  intros E HB Hty0 Hx Hy. rewrite declared_total in HB.
  assert (Hty : forall d, In d ds -> exists t, d_access d = Some t /\ d_width d <= ty_bits t).
  { intros d Hd. destruct (Hty0 d Hd) as (t & b & T1 & T2 & T3). rewrite (type_width_bits _ _ T2) in T3. eauto. }
  clear Hty0. destruct (derive_total _ _ _ E) as [E1 _].
  pose proof (derive_loop_some _ _ _ _ E1) as (_ & Hl & Hw & _).
  assert (G : forall i d, nth_error ds i = Some d -> exists a, nth_error acs i = Some (Some a) /\ forall z, bf_getter B a z = field_at (0 + total (firstn i ds)) (d_width d) z).
  { intros i d Hd. destruct (nth_error acs i) as [[a|]|] eqn:Ea.
    - exists a. split; auto. intro z. destruct (derive_fits _ _ _ _ _ E Ea) as (F & O & d' & D1 & D2 & D3 & D4). rewrite Hd in D1. inversion D1; subst d'.
      destruct (Hty d) as (t & T1 & T2); [eapply nth_error_In; eauto|]. rewrite D4 in T1. inversion T1; subst t.
      destruct F as (W1 & F'). rewrite getter_field; [|split; auto|lia]. unfold field_at. rewrite N.add_0_l, O, D2. do 2 f_equal. lia.
    - exfalso. clear -E1 Ea Hd Hty. revert i acs Ea Hd E1. generalize 0. generalize (total ds). induction ds as [|e ds IH]; intros t o [|i] acs Ea Hd E1; try discriminate; cbn [derive_loop] in E1.
      + cbn in Hd. inversion Hd; subst. destruct (_ && _); [|discriminate]. destruct (derive_loop _ _) as [[acs1 t1]|]; [|discriminate]. inversion E1; subst.
        destruct (Hty d (or_introl eq_refl)) as (ty & T1 & _). rewrite T1 in Ea. discriminate.
      + cbn [nth_error] in Hd. destruct (_ && _); [|discriminate]. destruct (derive_loop ds (o + d_width e)) as [[acs1 t1]|] eqn:Er; [|discriminate]. inversion E1; subst.
        cbn [nth_error] in Ea. eapply (IH ltac:(intros; apply Hty; right; auto)); eauto.
    - exfalso. apply nth_error_None in Ea. assert (X : nth_error ds i <> None) by congruence. apply nth_error_Some in X. lia. }
  assert (Gr : forall i a, nth_error acs i = Some (Some a) -> exists d, nth_error ds i = Some d).
  { intros i a Ha. destruct (derive_fits _ _ _ _ _ E Ha) as (_ & _ & d & D & _). eauto. }
  pose proof (fields_lt ds 0 x y) as L. rewrite N.add_0_l, HB in L. specialize (L Hx Hy). rewrite N.pow_0_r, !N.div_1_r in L. rewrite L. split.
  - intros (j & e & H1 & H2 & H3). destruct (G j e H1) as (a & A1 & A2). exists j, a. rewrite !A2. split; auto. split; auto.
    intros k b Hb Hk. destruct (Gr k b Hb) as [f Hf]. destruct (G k f Hf) as (b' & B1 & B2). rewrite Hb in B1. inversion B1; subst b'. rewrite !B2. apply H3; auto.
  - intros (j & a & H1 & H2 & H3). destruct (Gr j a H1) as [e He]. destruct (G j e He) as (a' & A1 & A2). rewrite H1 in A1. inversion A1; subst a'. rewrite !A2 in H2.
    exists j, e. split; auto. split; auto. intros k f Hf Hk. destruct (G k f Hf) as (b & B1 & B2). rewrite <- (B2 x), <- (B2 y). exact (H3 k b B1 Hk).
Qed.

(** The reduction score (reduce.rs 8-17) is an accepted declaration, and the
    setters used in the model of [reduce] are the generated ones. *)
Definition score_decls : list bf_decl :=
  [mkDecl 24 true (Some (TUint 64)); mkDecl 6 false (Some (TUint 64)); mkDecl 2 false (Some (TUint 64))].
Lemma set_masked a x v : fits 32 a -> x < 2 ^ 32 -> v < 2 ^ ty_bits (ac_ty a) -> ac_clamp a = false ->
  bf_setter 32 a x v = bf_set (ac_offset a) (ac_width a) x v.
Proof.
  intros F Hx Hv C. apply N.bits_inj. intro i. rewrite setter_bit by auto. destruct F as (W1 & W2 & W3 & _). set (o := ac_offset a) in *. set (w := ac_width a) in *.
  unfold bf_set, bf_mask. rewrite ones_shift, N.lor_spec, N.land_spec, not32_bit, !shiftl_bit, N.land_spec, !ones_bit. unfold stored. rewrite C. fold w. fold (as_bits w v). rewrite as_bits_bit.
  change (to_u32 v) with (as_bits 32 v). rewrite as_bits_bit.
  destruct (N.leb_spec o i); cbn [andb].
  - destruct (N.ltb_spec i (o + w)).
    + destruct (N.ltb_spec (i - o) w); [|lia]. destruct (N.ltb_spec i 32); [|lia]. destruct (N.ltb_spec (i - o) 32); [|lia]. cbn. rewrite andb_false_r, andb_true_r. reflexivity.
    + destruct (N.ltb_spec (i - o) w); [lia|]. rewrite andb_false_r, orb_false_r. destruct (N.ltb_spec i 32); [symmetry; apply andb_true_r|].
      rewrite (testbit_high x 32) by auto. reflexivity.
  - rewrite orb_false_r. destruct (N.ltb_spec i 32); [symmetry; apply andb_true_r|]. rewrite (testbit_high x 32) by auto. reflexivity.
Qed.
Theorem score_is_bitfield : exists len glue inv_used,
  derive_bitfield 32 score_decls = Some [Some len; Some glue; Some inv_used] /\
  forall x v, x < 2 ^ 32 -> v < 2 ^ 64 ->
    bf_setter 32 len x v = score_set_len x v /\ bf_setter 32 glue x v = score_set_glue x v /\ bf_setter 32 inv_used x v = score_set_inv_used x v.
Proof.
  do 3 eexists. split; [reflexivity|]. intros x v Hx Hv.
  assert (S1 : forall i, N.testbit (score_set_len x v) i = if (0 <=? i) && (i <? 0 + 24) then N.testbit (sat 24 v) (i - 0) else N.testbit x i) by (intro i; apply (hw_set_field_testbit 0 24 x v i Hx); lia).
  split; [|split].
  - apply N.bits_inj. intro i. rewrite S1, setter_bit; auto; [|repeat split; cbn; try lia; discriminate]. cbn [ac_offset ac_width].
    destruct (_ && _); auto. f_equal. unfold stored, sat. cbn [ac_clamp ac_width d_clamp d_width]. change (N.ones 24) with 16777215. change (2 ^ 24 - 1) with 16777215. destruct (N.ltb_spec 16777215 v); lia.
  - apply set_masked; auto. repeat split; cbn; try lia; discriminate.
  - apply set_masked; auto. repeat split; cbn; try lia; discriminate.
Qed.

(** The fields of a clause header word (clause_arena.rs 32-70), for all positions
    and widths that the assertions in the code admit. *)
Theorem header_word_field (S W d v : N) : S + W <= 31 -> d < 2 ^ 31 -> v < 2 ^ 32 ->
  let d' := hw_set_field S W d v in
  d' < 2 ^ 31 /\ hw_field S W d' = N.min v (2 ^ W - 1) /\
  (forall S' W', S' + W' <= S \/ S + W <= S' -> hw_field S' W' d' = hw_field S' W' d) /\
  (forall k, k < S \/ S + W <= k -> hw_bit k d' = hw_bit k d).
Proof.
  intros H Hd Hv d'. assert (Hd2 : d < 2 ^ 32) by (change (2 ^ 32) with (2 * 2 ^ 31); lia). subst d'. split; [apply hw_set_field_lt; auto|]. split.
  - rewrite hw_field_set_same by (auto; lia). unfold sat. replace (2 ^ W - 1) with (N.ones W) by (rewrite N.ones_equiv; lia). destruct (N.ltb_spec (N.ones W) v); lia.
  - assert (X : forall k, k < S \/ S + W <= k -> N.testbit (hw_set_field S W d v) k = N.testbit d k).
    { intros k Hk. rewrite hw_set_field_testbit by (auto; lia). destruct (N.leb_spec S k), (N.ltb_spec k (S + W)); try reflexivity; lia. }
    split.
    + intros S' W' Hs. apply hw_field_ext. intros i Hi. apply X. lia.
    + intros k Hk. rewrite !hw_bit_spec. auto.
Qed.
Theorem header_word_bit (k d : N) (b : bool) : k < 31 -> d < 2 ^ 31 ->
  let d' := hw_set_bit k d b in
  d' < 2 ^ 31 /\ hw_bit k d' = b /\ (forall j, j <> k -> hw_bit j d' = hw_bit j d) /\
  (forall S W, k < S \/ S + W <= k -> hw_field S W d' = hw_field S W d).
Proof.
  intros Hk Hd d'. assert (Hd2 : d < 2 ^ 32) by (change (2 ^ 32) with (2 * 2 ^ 31); lia). subst d'. split; [apply hw_set_bit_lt; auto|].
  assert (X : forall i, N.testbit (hw_set_bit k d b) i = if i =? k then b else N.testbit d i) by (intro i; apply hw_set_bit_testbit; auto; lia).
  split; [rewrite hw_bit_spec, X, N.eqb_refl; reflexivity|]. split.
  - intros j Hj. rewrite !hw_bit_spec, X. destruct (N.eqb_spec j k); [contradiction|reflexivity].
  - intros S W HS. apply hw_field_ext. intros i Hi. rewrite X. destruct (N.eqb_spec (i + S) k); [lia|reflexivity].
Qed.

(** A byte with a flag, three unused bits and a saturating nibble; and the score,
    all of whose bits are used. *)
Definition byte_decls : list bf_decl := [mkDecl 1 false (Some TBool); mkDecl 3 false None; mkDecl 4 true (Some (TUint 8))].
Example bitfield_set_example : exists flag nibble,
  derive_bitfield 8 byte_decls = Some [Some flag; None; Some nibble] /\
  bf_setter 8 nibble 47 200 = 255 /\ bf_getter 8 nibble 255 = 15 /\ bf_getter 8 flag 255 = 1 /\
  bf_setter 8 flag 255 0 = 254 /\ bf_getter 8 nibble 254 = 15 /\ derive_bitfield 7 byte_decls = None.
Proof. do 2 eexists. split; [reflexivity|]. repeat split. Qed.
Example bitfield_order_example : exists acs, derive_bitfield 32 score_decls = Some acs /\ declared_bits score_decls = 32 /\
  forall d, In d score_decls -> exists t b, d_access d = Some t /\ type_width t b /\ d_width d <= b.
Proof.
  eexists. split; [reflexivity|]. split; [reflexivity|]. intros d Hd. cbn in Hd. destruct Hd as [<-|[<-|[<-|[]]]]; do 2 eexists; (split; [reflexivity|split; [reflexivity|cbn; lia]]).
Qed.
Example header_word_example : hw_set_field 2 6 1023 9 = 807 /\ hw_field 2 6 807 = 9 /\ hw_field 8 2 807 = 3 /\ hw_bit 1 807 = true /\
  hw_set_bit 30 807 true = 1073742631 /\ hw_field 2 6 1073742631 = 9.
Proof. repeat split. Qed.

Print Assumptions header_word_field.
Print Assumptions header_word_bit.
Print Assumptions bitfield_accepts.
Print Assumptions bitfield_set.
Print Assumptions bitfield_order.
Print Assumptions score_is_bitfield.
