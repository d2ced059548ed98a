(** Bit-level lemmas for bit fields of any integer type. *)
From Coq Require Import ZArith List Bool Arith Lia ZifyBool.
From Verif Require Import Model_Base Model_BitfieldInt.
Import ListNotations.
Local Open Scope Z_scope.

Definition in_int (t : int_ty) (x : Z) : Prop :=
  if i_signed t then - 2 ^ (i_bits t - 1) <= x < 2 ^ (i_bits t - 1) else 0 <= x < 2 ^ i_bits t.

Lemma pow2_pos n : 0 <= n -> 0 < 2 ^ n.
Proof. intro. apply Z.pow_pos_nonneg; lia. Qed.
Lemma pow2_half n : 1 <= n -> 2 ^ n = 2 * 2 ^ (n - 1).
Proof. intro. rewrite <- Z.pow_succ_r by lia. f_equal. lia. Qed.

Lemma cast_in t z : 1 <= i_bits t -> in_int t (int_cast t z).
Proof.
  intro H. unfold in_int, int_cast. pose proof (pow2_pos (i_bits t) ltac:(lia)). pose proof (pow2_pos (i_bits t - 1) ltac:(lia)). pose proof (pow2_half _ H).
  destruct (i_signed t).
  - pose proof (Z.mod_pos_bound (z + 2 ^ (i_bits t - 1)) (2 ^ i_bits t) ltac:(lia)). lia.
  - apply Z.mod_pos_bound. lia.
Qed.
Lemma cast_mod t z : 1 <= i_bits t -> int_cast t z mod 2 ^ i_bits t = z mod 2 ^ i_bits t.
Proof.
  intro H. unfold int_cast. pose proof (pow2_pos (i_bits t) ltac:(lia)). destruct (i_signed t).
  - rewrite Zminus_mod_idemp_l. f_equal. lia.
  - apply Z.mod_mod. lia.
Qed.
Lemma in_int_mod t x y : 1 <= i_bits t -> in_int t x -> in_int t y -> x mod 2 ^ i_bits t = y mod 2 ^ i_bits t -> x = y.
Proof.
  intros H Hx Hy E. unfold in_int in *. pose proof (pow2_pos (i_bits t - 1) ltac:(lia)). pose proof (pow2_half _ H) as P.
  destruct (i_signed t).
  - assert (Q : (x + 2 ^ (i_bits t - 1)) mod 2 ^ i_bits t = (y + 2 ^ (i_bits t - 1)) mod 2 ^ i_bits t).
    { rewrite <- (Zplus_mod_idemp_l x), <- (Zplus_mod_idemp_l y), E. reflexivity. }
    rewrite !Z.mod_small in Q by lia. lia.
  - rewrite !Z.mod_small in E by lia. exact E.
Qed.
Lemma cast_id t x : 1 <= i_bits t -> in_int t x -> int_cast t x = x.
Proof. intros H Hx. apply (in_int_mod t); auto using cast_in, cast_mod. Qed.
Lemma cast_bit t z i : 0 <= i < i_bits t -> Z.testbit (int_cast t z) i = Z.testbit z i.
Proof.
  intro H. rewrite <- (Z.mod_pow2_bits_low (int_cast t z) (i_bits t)), <- (Z.mod_pow2_bits_low z (i_bits t)) by lia. rewrite cast_mod by lia. reflexivity.
Qed.
(** Numbers of a type are determined by their lowest bits. *)
Lemma int_ext t x y : 1 <= i_bits t -> in_int t x -> in_int t y -> (forall i, 0 <= i < i_bits t -> Z.testbit x i = Z.testbit y i) -> x = y.
Proof.
  intros H Hx Hy E. apply (in_int_mod t); auto. apply Z.bits_inj. intro i. destruct (Z.ltb_spec i 0); [rewrite !Z.testbit_neg_r by lia; reflexivity|].
  destruct (Z.ltb_spec i (i_bits t)).
  - rewrite !Z.mod_pow2_bits_low by lia. apply E. lia.
  - rewrite !Z.mod_pow2_bits_high by lia. reflexivity.
Qed.
Lemma in_int_shift t x : 1 <= i_bits t ->
  (in_int t x <-> if i_signed t then Z.shiftr x (i_bits t - 1) = 0 \/ Z.shiftr x (i_bits t - 1) = -1 else Z.shiftr x (i_bits t) = 0).
Proof.
  intro H. unfold in_int. pose proof (pow2_pos (i_bits t - 1) ltac:(lia)) as P1. pose proof (pow2_pos (i_bits t) ltac:(lia)) as P2. destruct (i_signed t); rewrite Z.shiftr_div_pow2 by lia.
  - split; intro G.
    + destruct (Z.ltb_spec x 0); [right|left; apply Z.div_small; lia]. symmetry. apply (Z.div_unique x _ (-1) (x + 2 ^ (i_bits t - 1))); lia.
    + pose proof (Z.div_mod x (2 ^ (i_bits t - 1)) ltac:(lia)). pose proof (Z.mod_pos_bound x (2 ^ (i_bits t - 1)) ltac:(lia)). destruct G as [G|G]; rewrite G in *; lia.
  - split; intro G; [apply Z.div_small; lia|]. pose proof (Z.div_mod x (2 ^ i_bits t) ltac:(lia)). pose proof (Z.mod_pos_bound x (2 ^ i_bits t) ltac:(lia)). rewrite G in *. lia.
Qed.
Lemma land_in t x y : 1 <= i_bits t -> in_int t x -> in_int t y -> in_int t (Z.land x y).
Proof.
  intro H. rewrite !in_int_shift by lia. destruct (i_signed t); rewrite Z.shiftr_land.
  - intros [->| ->] [->| ->]; cbn; auto.
  - intros -> ->. reflexivity.
Qed.
Lemma lor_in t x y : 1 <= i_bits t -> in_int t x -> in_int t y -> in_int t (Z.lor x y).
Proof.
  intro H. rewrite !in_int_shift by lia. destruct (i_signed t); rewrite Z.shiftr_lor.
  - intros [->| ->] [->| ->]; cbn; auto.
  - intros -> ->. reflexivity.
Qed.

Lemma mask_ones w : 0 <= w <= 128 -> int_mask w = Z.ones w.
Proof.
  intro H. unfold int_mask. replace (2 ^ 128 - 1) with (Z.ones 128) by reflexivity. apply Z.bits_inj'. intros i Hi.
  rewrite Z.shiftr_spec by lia. rewrite !Z.testbit_ones_nonneg by lia. lia.
Qed.
Lemma mask_bit w i : 0 <= w <= 128 -> 0 <= i -> Z.testbit (int_mask w) i = (i <? w).
Proof. intros. rewrite mask_ones by lia. apply Z.testbit_ones_nonneg; lia. Qed.
Lemma mask_val w : 0 <= w <= 128 -> int_mask w = 2 ^ w - 1.
Proof. intro. rewrite mask_ones by lia. rewrite Z.ones_equiv. lia. Qed.
Lemma shl_bit t x n i : 0 <= i < i_bits t -> 0 <= n -> Z.testbit (int_shl t x n) i = (n <=? i) && Z.testbit x (i - n).
Proof.
  intros H Hn. unfold int_shl. rewrite cast_bit, Z.shiftl_spec by lia. destruct (Z.leb_spec n i); [reflexivity|]. rewrite Z.testbit_neg_r by lia. reflexivity.
Qed.
Lemma not_bit t x i : 0 <= i < i_bits t -> Z.testbit (int_not t x) i = negb (Z.testbit x i).
Proof. intro. unfold int_not. rewrite cast_bit by lia. apply Z.lnot_spec. lia. Qed.

(** An accessor that fits into the type [t] *)
Definition ia_fits (t : int_ty) (a : int_accessor) : Prop :=
  0 <= ia_offset a /\ 1 <= ia_width a < 128 /\ ia_offset a + ia_width a <= i_bits t /\ (ia_ty a = VBool -> ia_width a = 1 /\ ia_clamp a = false).
(** The number a setter stores *)
Definition ia_stored (a : int_accessor) (v : Z) : Z :=
  if ia_clamp a then Z.max 0 (Z.min v (2 ^ ia_width a - 1)) else v mod 2 ^ ia_width a.
Definition in_value (t : value_ty) (v : Z) : Prop :=
  match t with VBool => v = 0 \/ v = 1 | VInt t => 1 <= i_bits t /\ in_int t v end.
(** The setters that cannot be called *)
Definition ia_panics (a : int_accessor) : bool :=
  ia_clamp a && match ia_ty a with VInt t => i_signed t && (i_bits t <=? ia_width a) | VBool => false end.

Lemma stored_range a v : 1 <= ia_width a -> 0 <= ia_stored a v < 2 ^ ia_width a.
Proof.
  intro H. unfold ia_stored. pose proof (pow2_pos (ia_width a) ltac:(lia)). destruct (ia_clamp a); [lia|apply Z.mod_pos_bound; lia].
Qed.
Lemma high_bit x w i : 0 <= w -> 0 <= x < 2 ^ w -> w <= i -> Z.testbit x i = false.
Proof. intros Hw Hx Hi. rewrite <- (Z.mod_small x (2 ^ w)) by lia. apply Z.mod_pow2_bits_high. lia. Qed.

Lemma setter_bits t a x v : ia_fits t a -> in_int t x -> in_value (ia_ty a) v ->
  if ia_panics a then int_setter t a x v = Panic PAssert
  else exists x', int_setter t a x v = Ret x' /\ in_int t x' /\
    forall i, 0 <= i < i_bits t -> Z.testbit x' i =
      if (ia_offset a <=? i) && (i <? ia_offset a + ia_width a) then Z.testbit (ia_stored a v) (i - ia_offset a) else Z.testbit x i.
Proof.
  intros (O & W & F & Bo) Hx Hv. pose proof (stored_range a v ltac:(lia)) as SR. set (o := ia_offset a) in *. set (w := ia_width a) in *. assert (HB : 1 <= i_bits t) by lia.
  set (keep := Z.land x (int_not t (int_shl t (int_cast t (int_mask w)) o))).
  assert (K : in_int t keep /\ forall i, 0 <= i < i_bits t -> Z.testbit keep i = if (o <=? i) && (i <? o + w) then false else Z.testbit x i).
  { split; [apply land_in; auto; apply cast_in; lia|]. intros i Hi. unfold keep. rewrite Z.land_spec, not_bit, shl_bit by lia.
    destruct (Z.leb_spec o i); cbn [andb].
    - rewrite cast_bit, mask_bit by lia. replace (i - o <? w) with (i <? o + w) by lia. destruct (i <? o + w); cbn; [apply andb_false_r|apply andb_true_r].
    - apply andb_true_r. }
  assert (Y : forall y, (forall j, 0 <= j < i_bits t -> Z.testbit y j = Z.testbit (ia_stored a v) j) ->
     in_int t (Z.lor keep (int_shl t y o)) /\ forall i, 0 <= i < i_bits t -> Z.testbit (Z.lor keep (int_shl t y o)) i =
       if (o <=? i) && (i <? o + w) then Z.testbit (ia_stored a v) (i - o) else Z.testbit x i).
  { intros y Hy. split; [apply lor_in; auto; [apply K|apply cast_in; lia]|]. intros i Hi. rewrite Z.lor_spec, (proj2 K i Hi), shl_bit by lia.
    destruct (Z.leb_spec o i); cbn [andb]; [|apply orb_false_r]. rewrite Hy by lia. destruct (Z.ltb_spec i (o + w)); [reflexivity|].
    rewrite (high_bit (ia_stored a v) w) by lia. apply orb_false_r. }
  unfold ia_panics, int_setter. fold o w. change (Z.land x _) with keep. destruct (ia_clamp a) eqn:C; cbn [andb].
  - destruct (ia_ty a) as [|u] eqn:T; [destruct (Bo eq_refl); discriminate|]. cbn [value_cast]. destruct Hv as [U Hv]. rewrite mask_val by lia.
    pose proof (pow2_pos w ltac:(lia)) as Pw. pose proof (pow2_pos (i_bits u) ltac:(lia)) as Pu. pose proof (pow2_pos (i_bits u - 1) ltac:(lia)) as Pu1. pose proof (pow2_half _ U) as Ph.
    assert (D : forall q r, q <= r -> 0 <= q -> exists c, 1 <= c /\ 2 ^ r = c * 2 ^ q).
    { intros q r Hq Hr. exists (2 ^ (r - q)). pose proof (pow2_pos (r - q) ltac:(lia)). split; [lia|]. rewrite <- Z.pow_add_r by lia. f_equal. lia. }
    assert (H1 : i_signed u = true -> i_bits u <= w -> int_cast u (2 ^ w - 1) = -1).
    { intros S1 S2. apply (in_int_mod u); auto; [apply cast_in; auto|unfold in_int; rewrite S1; lia|]. rewrite cast_mod by auto.
      destruct (D (i_bits u) w S2 ltac:(lia)) as (c & _ & ->). replace (c * 2 ^ i_bits u - 1) with (-1 + c * 2 ^ i_bits u) by lia. rewrite Z.mod_add by lia. reflexivity. }
    assert (H2 : i_signed u = true -> w < i_bits u -> int_cast u (2 ^ w - 1) = 2 ^ w - 1).
    { intros S1 S2. apply cast_id; auto. unfold in_int. rewrite S1. pose proof (Z.pow_le_mono_r 2 w (i_bits u - 1)). lia. }
    assert (H3 : i_signed u = false -> int_cast u (2 ^ w - 1) = Z.min (2 ^ w - 1) (2 ^ i_bits u - 1)).
    { intro S1. destruct (Z.le_gt_cases w (i_bits u)).
      - rewrite cast_id; auto; [|unfold in_int; rewrite S1]; pose proof (Z.pow_le_mono_r 2 w (i_bits u)); lia.
      - apply (in_int_mod u); auto; [apply cast_in; auto|unfold in_int; rewrite S1; pose proof (Z.pow_le_mono_r 2 (i_bits u) w); lia|]. rewrite cast_mod by auto.
        pose proof (Z.pow_le_mono_r 2 (i_bits u) w). rewrite Z.min_r by lia. destruct (D (i_bits u) w ltac:(lia) ltac:(lia)) as (c & _ & ->).
        replace (c * 2 ^ i_bits u - 1) with (2 ^ i_bits u - 1 + (c - 1) * 2 ^ i_bits u) by lia. rewrite Z.mod_add by lia. reflexivity. }
    assert (V : forall hi, 0 <= hi -> (hi = 2 ^ w - 1 \/ hi <= 2 ^ w - 1 /\ v <= hi) -> (if v <? 0 then 0 else if hi <? v then hi else v) = ia_stored a v).
    { intros hi G1 G2. unfold ia_stored. rewrite C. fold w. destruct (Z.ltb_spec v 0); [lia|]. destruct (Z.ltb_spec hi v); lia. }
    destruct (i_signed u) eqn:S1; cbn [andb].
    + destruct (Z.leb_spec (i_bits u) w) as [S2|S2].
      * rewrite H1 by auto. reflexivity.
      * rewrite H2 by auto. destruct (Z.leb_spec 0 (2 ^ w - 1)); [|lia]. eexists. split; [reflexivity|]. rewrite V by (auto; lia). apply Y. intros j Hj. apply cast_bit. lia.
    + rewrite H3 by auto. destruct (Z.leb_spec 0 (Z.min (2 ^ w - 1) (2 ^ i_bits u - 1))); [|lia]. eexists. split; [reflexivity|].
      unfold in_int in Hv. rewrite S1 in Hv. rewrite V by lia. apply Y. intros j Hj. apply cast_bit. lia.
  - eexists. split; [reflexivity|]. apply Y. intros j Hj. rewrite Z.land_spec, !cast_bit, mask_bit by lia. unfold ia_stored. rewrite C. fold w.
    destruct (Z.ltb_spec j w); [rewrite Z.mod_pow2_bits_low by lia; apply andb_true_r|rewrite Z.mod_pow2_bits_high by lia; apply andb_false_r].
Qed.

(** The bits a getter reads *)
Definition ia_bits (a : int_accessor) (x : Z) : Z := (x / 2 ^ ia_offset a) mod 2 ^ ia_width a.
Lemma ia_bits_bit a x i : 0 <= ia_offset a -> 0 <= ia_width a -> 0 <= i -> Z.testbit (ia_bits a x) i = (i <? ia_width a) && Z.testbit x (i + ia_offset a).
Proof.
  intros O W H. unfold ia_bits. rewrite <- Z.shiftr_div_pow2 by lia. destruct (Z.ltb_spec i (ia_width a)).
  - rewrite Z.mod_pow2_bits_low, Z.shiftr_spec by lia. reflexivity.
  - apply Z.mod_pow2_bits_high. lia.
Qed.
Lemma ia_bits_range a x : 0 <= ia_width a -> 0 <= ia_bits a x < 2 ^ ia_width a.
Proof. intro. apply Z.mod_pos_bound. apply pow2_pos. lia. Qed.

(** What a getter returns for the bits it reads *)
Definition ia_read (t : int_ty) (a : int_accessor) (f : Z) : Z :=
  if ia_width a =? 1 then f
  else value_cast (ia_ty a) (if i_signed t && (ia_width a =? i_bits t) then int_cast t f else f).
Lemma getter_bits t a x : ia_fits t a -> in_int t x -> int_getter t a x = ia_read t a (ia_bits a x).
Proof.
  intros (O & W & F & Bo) Hx. assert (HB : 1 <= i_bits t) by lia. unfold int_getter, ia_read. destruct (Z.eqb_spec (ia_width a) 1) as [W1|W1].
  - assert (E : Z.testbit (Z.land x (int_shl t 1 (ia_offset a))) (ia_offset a) = Z.testbit x (ia_offset a)).
    { rewrite Z.land_spec, shl_bit by lia. rewrite Z.leb_refl, Z.sub_diag. apply andb_true_r. }
    assert (R : ia_bits a x = Z.b2z (Z.testbit x (ia_offset a))).
    { unfold ia_bits. rewrite W1, <- Z.shiftr_div_pow2 by lia. change (2 ^ 1) with 2. rewrite <- Z.bit0_mod, Z.shiftr_spec by lia. reflexivity. }
    rewrite R. destruct (Z.eqb_spec (Z.land x (int_shl t 1 (ia_offset a))) 0) as [Z0|Z0].
    + rewrite Z0, Z.testbit_0_l in E. rewrite <- E. reflexivity.
    + destruct (Z.testbit x (ia_offset a)) eqn:T; [reflexivity|]. exfalso. apply Z0. apply (int_ext t); auto.
      * apply land_in; auto. apply cast_in. auto.
      * unfold in_int. pose proof (pow2_pos (i_bits t) ltac:(lia)). pose proof (pow2_pos (i_bits t - 1) ltac:(lia)). destruct (i_signed t); lia.
      * intros i Hi. rewrite Z.land_spec, shl_bit, Z.testbit_0_l by lia. destruct (Z.leb_spec (ia_offset a) i); [|apply andb_false_r]. cbn [andb].
        destruct (Z.eq_dec i (ia_offset a)) as [->|N]; [rewrite T; reflexivity|]. rewrite (high_bit 1 1) by lia. apply andb_false_r.
  - f_equal. destruct (i_signed t) eqn:S1; cbn [andb].
    + destruct (Z.eqb_spec (ia_width a) (i_bits t)) as [WB|WB].
      * assert (O0 : ia_offset a = 0) by lia. rewrite O0, Z.shiftr_0_r. apply (int_ext t); auto; [apply land_in; auto; apply cast_in; auto|apply cast_in; auto|].
        intros i Hi. rewrite Z.land_spec, !cast_bit, mask_bit by lia. rewrite ia_bits_bit by lia. rewrite O0, Z.add_0_r. apply andb_comm.
      * apply Z.bits_inj'. intros i Hi. rewrite Z.land_spec, Z.shiftr_spec, ia_bits_bit by lia. rewrite cast_id; [|auto|].
        2:{ unfold in_int. rewrite S1, mask_val by lia. pose proof (Z.pow_le_mono_r 2 (ia_width a) (i_bits t - 1)). pose proof (pow2_pos (ia_width a)). lia. }
        rewrite mask_bit by lia. apply andb_comm.
    + apply Z.bits_inj'. intros i Hi. rewrite Z.land_spec, Z.shiftr_spec, ia_bits_bit by lia. rewrite cast_id; [|auto|].
      2:{ unfold in_int. rewrite S1, mask_val by lia. pose proof (Z.pow_le_mono_r 2 (ia_width a) (i_bits t)). pose proof (pow2_pos (ia_width a)). lia. }
      rewrite mask_bit by lia. apply andb_comm.
Qed.

(** Where accessors are *)
Lemma derive_decls_spec ds : forall o acs tot, derive_decls ds o = Some (acs, tot) -> 0 <= o ->
  o <= tot /\ length acs = length ds /\
  forall i a, nth_error acs i = Some (Some a) -> exists d, nth_error ds i = Some d /\
    1 <= ia_width a < 128 /\ ia_width a = de_width d /\ ia_clamp a = de_clamp d /\ Some (ia_ty a) = de_access d /\
    ia_offset a = o + fold_right Z.add 0 (map de_width (firstn i ds)) /\ o <= ia_offset a /\ ia_offset a + ia_width a <= tot /\ (ia_ty a = VBool -> ia_width a = 1 /\ ia_clamp a = false) /\
    forall j b, (i < j)%nat -> nth_error acs j = Some (Some b) -> ia_offset a + ia_width a <= ia_offset b.
Proof.
  induction ds as [|d ds IH]; intros o acs tot E Ho; cbn [derive_decls] in E.
  - inversion E; subst. split; [lia|]. split; [reflexivity|]. intros [|i] a H; discriminate.
  - destruct ((1 <=? de_width d) && (de_width d <? 128) && decl_compiles d) eqn:G; [|discriminate]. apply andb_prop in G as [G C]. apply andb_prop in G as [G1 G2].
    destruct (derive_decls ds (o + de_width d)) as [[acs1 tot1]|] eqn:E1; [|discriminate]. inversion E; subst.
    destruct (IH _ _ _ E1 ltac:(lia)) as (T & L & R). split; [lia|]. split; [cbn; lia|]. intros [|i] a H.
    + cbn in H. destruct (de_access d) as [u|] eqn:A; cbn in H; [|discriminate]. inversion H; subst. exists d. cbn.
      split; [reflexivity|]. split; [lia|]. split; [reflexivity|]. split; [reflexivity|]. split; [auto|]. split; [lia|]. split; [lia|]. split; [lia|]. split.
      * intros ->. unfold decl_compiles in C. rewrite A in C. destruct (de_clamp d); [rewrite andb_false_r in C; discriminate|]. split; [lia|reflexivity].
      * intros [|j] b Hj Hb; [lia|]. cbn in Hb. destruct (R j b Hb) as (d' & _ & _ & _ & _ & _ & _ & X & _). lia.
    + cbn in H. destruct (R i a H) as (d' & D1 & D2 & D3 & D4 & D5 & D6 & D7 & D8 & D9 & D10). exists d'. split; [exact D1|]. split; [exact D2|]. split; [exact D3|]. split; [exact D4|]. split; [exact D5|].
      split; [cbn [firstn map fold_right]; lia|]. split; [lia|]. split; [exact D8|]. split; [exact D9|].
      intros [|j] b Hj Hb; [lia|]. cbn in Hb. apply (D10 j b); [lia|exact Hb].
Qed.
Lemma derive_attr_spec t ds acs : derive_attr t ds = Some acs -> 0 <= i_bits t ->
  length acs = length ds /\
  forall i a, nth_error acs i = Some (Some a) -> ia_fits t a /\ exists d, nth_error ds i = Some d /\
    ia_width a = de_width d /\ ia_clamp a = de_clamp d /\ Some (ia_ty a) = de_access d /\
    ia_offset a = fold_right Z.add 0 (map de_width (firstn i ds)) /\
    forall j b, (i < j)%nat -> nth_error acs j = Some (Some b) -> ia_offset a + ia_width a <= ia_offset b.
Proof.
  unfold derive_attr. intros E Hb. destruct (derive_decls ds 0) as [[acs1 tot]|] eqn:E1; [|discriminate]. destruct (derive_decls_spec _ _ _ _ E1 (Z.le_refl 0)) as (T & L & R).
  assert (acs1 = acs /\ tot <= i_bits t) as [-> Ht].
  { destruct (Z.ltb_spec 0 tot); [destruct (Z.ltb_spec (tot - 1) (i_bits t)); inversion E; subst; split; auto; lia|inversion E; subst; split; auto; lia]. }
  split; [exact L|]. intros i a H. destruct (R i a H) as (d & D1 & D2 & D3 & D4 & D5 & D6 & D7 & D8 & D9 & D10).
  split; [unfold ia_fits; repeat split; try lia; apply D9; auto|]. exists d. repeat split; auto.
Qed.

Lemma all_some_nth {A B} (f : A -> option B) l ys n y : all_some f l = Some ys -> nth_error ys n = Some y -> exists x, nth_error l n = Some x /\ f x = Some y.
Proof.
  revert ys n. induction l as [|x l IH]; intros ys n E H; cbn in E; [inversion E; subst; destruct n; discriminate|].
  destruct (f x) as [y0|] eqn:Ex; [|discriminate]. destruct (all_some f l) as [ys0|] eqn:El; [|discriminate]. inversion E; subst. destruct n; cbn in H.
  - inversion H; subst. exists x. auto.
  - destruct (IH _ _ eq_refl H) as (x' & X & Y). exists x'. auto.
Qed.
