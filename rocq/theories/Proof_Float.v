(** binary32 arithmetic: the executable specification [SpecFloat] used by the
    model agrees with Flocq's operations, and the facts about non-negative
    finite numbers that the VSIDS proofs need. *)
From Coq Require Import NArith ZArith List Bool Arith Floats.SpecFloat Reals Lia Lra Psatz ZifyN ZifyNat ZifyBool.
From Flocq Require Import Core.Core IEEE754.BinarySingleNaN.
From Verif Require Import Model_Vsids.
Local Open Scope R_scope.

Notation prec := 24%Z.
Notation emax := 128%Z.
Notation fx := (FLT_exp (-149) 24).
Notation rnd := (round radix2 fx ZnearestE).
Notation bfloat := (binary_float 24 128).
Notation e2 := (bpow radix2).

#[global] Instance Hprec32 : FLX.Prec_gt_0 24 := eq_refl.
#[global] Instance Hmax32 : Prec_lt_emax 24 128 := eq_refl.

(** ** SpecFloat = Flocq *)
Lemma round_nearest_even_equiv s m l : round_nearest_even m l = choice_mode mode_NE s m l.
Proof.
  case l; [reflexivity|intro c]. case c; [|reflexivity..].
  now simpl; unfold Round.cond_incr; case Z.even.
Qed.

Lemma binary_round_aux_equiv sx mx ex lx :
  SpecFloat.binary_round_aux 24 128 sx mx ex lx = BinarySingleNaN.binary_round_aux 24 128 mode_NE sx mx ex lx.
Proof.
  unfold SpecFloat.binary_round_aux, BinarySingleNaN.binary_round_aux.
  set (mrse' := shr_fexp _ _ _ _ _). case mrse'; intros mrs' e'; simpl.
  now rewrite (round_nearest_even_equiv sx).
Qed.

Lemma binary_round_equiv s m e :
  SpecFloat.binary_round 24 128 s m e = BinarySingleNaN.binary_round 24 128 mode_NE s m e.
Proof.
  unfold SpecFloat.binary_round, BinarySingleNaN.binary_round, shl_align_fexp.
  set (mez := shl_align _ _ _); case mez; intros mz ez.
  apply binary_round_aux_equiv.
Qed.

Lemma binary_normalize_equiv m e szero :
  SpecFloat.binary_normalize 24 128 m e szero = B2SF (BinarySingleNaN.binary_normalize 24 128 _ _ mode_NE m e szero).
Proof.
  case m as [|p|p].
  - now simpl.
  - simpl. rewrite B2SF_SF2B. apply binary_round_equiv.
  - simpl. rewrite B2SF_SF2B. apply binary_round_equiv.
Qed.

Lemma add_equiv (x y : bfloat) : f32_add (B2SF x) (B2SF y) = B2SF (Bplus mode_NE x y).
Proof.
  case x as [sx|sx| |sx mx ex Bx]; case y as [sy|sy| |sy my ey By]; auto;
    try (unfold f32_add; simpl; now case Bool.eqb).
  unfold f32_add. cbn [B2SF SFadd Bplus]. rewrite binary_normalize_equiv. reflexivity.
Qed.

Lemma mul_equiv (x y : bfloat) : f32_mul (B2SF x) (B2SF y) = B2SF (Bmult mode_NE x y).
Proof.
  case x as [sx|sx| |sx mx ex Bx]; case y as [sy|sy| |sy my ey By]; auto.
  unfold f32_mul. simpl. rewrite B2SF_SF2B. apply binary_round_aux_equiv.
Qed.

(** ** Non-negative finite numbers *)
Definition nn (f : spec_float) : Prop := exists x : bfloat, B2SF x = f /\ is_finite x = true /\ Bsign x = false.
Definition val (f : spec_float) : R := SF2R radix2 f.

Lemma nn_iff f : nn f <->
  match f with
  | S754_zero s => s = false
  | S754_finite s m e => s = false /\ SpecFloat.bounded 24 128 m e = true
  | _ => False
  end.
Proof.
  split.
  - intros (x & <- & F & S). destruct x as [s|s| |s m e B]; cbn in *; auto; discriminate.
  - destruct f as [s|s| |s m e]; try contradiction.
    + intros ->. exists (B754_zero false). auto.
    + intros [-> B]. exists (B754_finite false m e B). auto.
Qed.

Lemma val_nonneg f : nn f -> 0 <= val f.
Proof.
  intro H. apply nn_iff in H. destruct f as [s|s| |s m e]; try contradiction; unfold val; cbn [SF2R]; try lra.
  destruct H as [-> _]. apply F2R_ge_0. cbn. lia.
Qed.

Lemma val_fmt f : nn f -> generic_format radix2 fx (val f).
Proof. intros (x & <- & F & S). unfold val. rewrite SF2R_B2SF. apply generic_format_B2R. Qed.

Lemma nn_inj f g : nn f -> nn g -> val f = val g -> f = g.
Proof.
  intros (x & <- & F & S) (y & <- & F' & S'). unfold val. rewrite !SF2R_B2SF. intro E. f_equal.
  apply B2R_Bsign_inj; auto. congruence.
Qed.

Lemma ltb_val f g : nn f -> nn g -> SFltb f g = true <-> val f < val g.
Proof.
  intros (x & <- & F & S) (y & <- & F' & S'). unfold val. rewrite !SF2R_B2SF.
  change (SFltb (B2SF x) (B2SF y)) with (Bltb x y). rewrite Bltb_correct by auto.
  split; [|apply Rlt_bool_true]. intro H. destruct (Rlt_bool_spec (B2R x) (B2R y)); auto. discriminate.
Qed.

Lemma rnd_mono x y : x <= y -> rnd x <= rnd y.
Proof. apply round_le; auto with typeclass_instances. Qed.

Lemma rnd_id x : generic_format radix2 fx x -> rnd x = x.
Proof. apply round_generic; auto with typeclass_instances. Qed.

Lemma fmt_bpow e : (-149 <= e)%Z -> generic_format radix2 fx (e2 e).
Proof. intro H. apply generic_format_bpow. unfold FLT_exp. lia. Qed.

Lemma rnd_bpow x e : (-149 <= e)%Z -> x <= e2 e -> rnd x <= e2 e.
Proof. intros H Hx. rewrite <- (rnd_id (e2 e)) by (apply fmt_bpow; auto). apply rnd_mono; auto. Qed.

Lemma rnd_ge x : 0 <= x -> 0 <= rnd x.
Proof. intro H. rewrite <- (rnd_id 0) by apply generic_format_0. apply rnd_mono; auto. Qed.

Lemma add_nn f g : nn f -> nn g -> val f + val g <= e2 127 -> nn (f32_add f g) /\ val (f32_add f g) = rnd (val f + val g).
Proof.
  intros Hf Hg Hle. pose proof (val_nonneg _ Hf). pose proof (val_nonneg _ Hg).
  destruct Hf as (x & <- & F & S), Hg as (y & <- & F' & S'). unfold val in *. rewrite add_equiv, !SF2R_B2SF in *.
  generalize (Bplus_correct 24 128 _ _ mode_NE x y F F'). change (SpecFloat.fexp 24 128) with fx. cbn [round_mode].
  rewrite Rlt_bool_true.
  2:{ rewrite Rabs_pos_eq by (apply rnd_ge; lra). apply Rle_lt_trans with (e2 127); [apply rnd_bpow; auto; lia|]. apply bpow_lt. lia. }
  intros (A & B & C). split; auto. exists (Bplus mode_NE x y). split; auto. split; auto. rewrite C, S, S'.
  destruct (Rcompare_spec (B2R x + B2R y) 0); auto. lra.
Qed.

Lemma mul_nn f g : nn f -> nn g -> val f * val g <= e2 127 -> nn (f32_mul f g) /\ val (f32_mul f g) = rnd (val f * val g).
Proof.
  intros Hf Hg Hle. pose proof (val_nonneg _ Hf). pose proof (val_nonneg _ Hg).
  destruct Hf as (x & <- & F & S), Hg as (y & <- & F' & S'). unfold val in *. rewrite mul_equiv, !SF2R_B2SF in *.
  generalize (Bmult_correct 24 128 _ _ mode_NE x y). change (SpecFloat.fexp 24 128) with fx. cbn [round_mode].
  rewrite Rlt_bool_true.
  2:{ rewrite Rabs_pos_eq by (apply rnd_ge; nra). apply Rle_lt_trans with (e2 127); [apply rnd_bpow; auto; lia|]. apply bpow_lt. lia. }
  intros (A & B & C). rewrite F, F' in B. split; auto. exists (Bmult mode_NE x y). split; auto. split; auto. rewrite C, S, S'; auto.
  destruct (Bmult mode_NE x y); auto; discriminate.
Qed.

(** ** Bit patterns *)
Lemma bounded_iff m e : SpecFloat.bounded 24 128 m e = true <->
  (e <= 104 /\ ((8388608 <= Z.pos m < 16777216 /\ -149 <= e) \/ (Z.pos m < 8388608 /\ e = -149)))%Z.
Proof.
  unfold SpecFloat.bounded, canonical_mantissa. rewrite andb_true_iff, Z.leb_le, <- Zeq_is_eq_bool.
  change (SpecFloat.fexp 24 128 ?x) with (Z.max (x - 24) (-149)). rewrite Digits.Zpos_digits2_pos.
  pose proof (Digits.Zdigits_correct radix2 (Z.pos m)) as H. cbn [Z.abs] in H. set (d := Digits.Zdigits radix2 (Z.pos m)) in *.
  assert (Hd : (0 < d)%Z) by (apply Digits.Zdigits_gt_0; lia).
  change (radix_val radix2) with 2%Z in H.
  assert (L : forall k, (0 <= k -> d <= k -> Z.pos m < 2 ^ k)%Z).
  { intros k Hk Hdk. apply Z.lt_le_trans with (2 ^ d)%Z; [apply H|]. apply Z.pow_le_mono_r; lia. }
  assert (G : forall k, (0 <= k -> k < d -> 2 ^ k <= Z.pos m)%Z).
  { intros k Hk Hdk. apply Z.le_trans with (2 ^ (d - 1))%Z; [|apply H]. apply Z.pow_le_mono_r; lia. }
  pose proof (L 24%Z ltac:(lia)). pose proof (L 23%Z ltac:(lia)). pose proof (G 24%Z ltac:(lia)). pose proof (G 23%Z ltac:(lia)).
  change (2 ^ 24)%Z with 16777216%Z in *. change (2 ^ 23)%Z with 8388608%Z in *. lia.
Qed.

Definition FIN : N := 2139095039.

Lemma from_bits_shape b : (b <= FIN)%N -> f32_from_bits b =
  (if (b / 8388608 =? 0)%N then
    match (b mod 8388608)%N with N0 => S754_zero false | Npos p => S754_finite false p (-149) end
  else match (b mod 8388608 + 8388608)%N with N0 => S754_zero false | Npos p => S754_finite false p (Z.of_N (b / 8388608) - 150) end).
Proof.
  unfold FIN. intro H. unfold f32_from_bits.
  assert (Hd : (b / 8388608 < 255)%N) by (apply N.div_lt_upper_bound; lia).
  replace (N.testbit b 31) with false.
  2:{ symmetry. destruct b as [|p]; auto. apply N.bits_above_log2. apply N.log2_lt_pow2; [lia|]. change (2 ^ 31)%N with 2147483648%N. lia. }
  replace (N.land (N.shiftr b 23) 255) with (N.land (N.shiftr b 23) (N.ones 8)) by reflexivity.
  rewrite !N.land_ones, N.shiftr_div_pow2.
  change 8388607%N with (N.ones 23). rewrite N.land_ones.
  change (2 ^ 23)%N with 8388608%N. change (2 ^ 8)%N with 256%N.
  rewrite (N.mod_small (b / 8388608)) by lia.
  destruct (N.eqb_spec (b / 8388608) 0); auto.
  destruct (N.eqb_spec (b / 8388608) 255); auto. lia.
Qed.

Lemma from_bits_nn b : (b <= FIN)%N -> nn (f32_from_bits b).
Proof.
  intro H. rewrite from_bits_shape by auto. apply nn_iff.
  pose proof (N.mod_lt b 8388608 ltac:(lia)).
  assert (Hd : (b / 8388608 < 255)%N) by (unfold FIN in H; apply N.div_lt_upper_bound; lia).
  destruct (N.eqb_spec (b / 8388608) 0).
  - destruct (b mod 8388608)%N eqn:E; auto. split; auto. apply bounded_iff. lia.
  - destruct (b mod 8388608 + 8388608)%N eqn:E; auto. split; auto. apply bounded_iff. lia.
Qed.

Lemma to_from b : (b <= FIN)%N -> f32_to_bits (f32_from_bits b) = b.
Proof.
  intro H. rewrite from_bits_shape by auto.
  pose proof (N.mod_lt b 8388608 ltac:(lia)). pose proof (N.div_mod b 8388608 ltac:(lia)) as E0.
  destruct (N.eqb_spec (b / 8388608) 0).
  - destruct (b mod 8388608)%N eqn:E; unfold f32_to_bits; [lia|].
    destruct (N.ltb_spec (N.pos p) 8388608); lia.
  - destruct (b mod 8388608 + 8388608)%N eqn:E; unfold f32_to_bits; [lia|].
    destruct (N.ltb_spec (N.pos p) 8388608); [lia|]. rewrite N.shiftl_mul_pow2. change (2 ^ 23)%N with 8388608%N. lia.
Qed.

Lemma to_bits_shape m e : SpecFloat.bounded 24 128 m e = true ->
  Z.of_N (f32_to_bits (S754_finite false m e)) = (8388608 * (e + 149) + Z.pos m)%Z.
Proof.
  intro H. apply bounded_iff in H. unfold f32_to_bits.
  destruct (N.ltb_spec (N.pos m) 8388608); [lia|]. rewrite N.shiftl_mul_pow2. change (2 ^ 23)%N with 8388608%N. lia.
Qed.

Lemma to_bits_fin f : nn f -> (f32_to_bits f <= FIN)%N.
Proof.
  intro H. apply nn_iff in H. destruct f as [s|s| |s m e]; try contradiction.
  - subst s. cbn. unfold FIN. lia.
  - destruct H as [-> H]. pose proof (to_bits_shape _ _ H). apply bounded_iff in H. unfold FIN. lia.
Qed.

Lemma from_to f : nn f -> f32_from_bits (f32_to_bits f) = f.
Proof.
  intro H. rewrite from_bits_shape by (apply to_bits_fin; auto). apply nn_iff in H.
  destruct f as [s|s| |s m e]; try contradiction.
  - subst s. reflexivity.
  - destruct H as [-> H]. pose proof (to_bits_shape _ _ H) as S. set (b := f32_to_bits _) in *. clearbody b.
    apply bounded_iff in H. pose proof (N.mod_lt b 8388608 ltac:(lia)). pose proof (N.div_mod b 8388608 ltac:(lia)) as E0.
    destruct (N.eqb_spec (b / 8388608) 0) as [E|E].
    + assert ((b mod 8388608)%N = N.pos m) as -> by lia. f_equal. lia.
    + assert ((b mod 8388608 + 8388608)%N = N.pos m) as -> by nia. f_equal. nia.
Qed.

Lemma F2R_lt m1 e1 m2 e2 : SpecFloat.bounded 24 128 m1 e1 = true -> SpecFloat.bounded 24 128 m2 e2 = true ->
  (8388608 * (e1 + 149) + Z.pos m1 < 8388608 * (e2 + 149) + Z.pos m2)%Z ->
  F2R (Float radix2 (Z.pos m1) e1) < F2R (Float radix2 (Z.pos m2) e2).
Proof.
  rewrite !bounded_iff. intros A B C. destruct (Z.eq_dec e1 e2) as [->|E].
  - apply F2R_lt. lia.
  - assert (e1 < e2)%Z by lia. replace e2 with (e1 + (e2 - e1))%Z by lia.
    unfold F2R. cbn [Fnum Fexp]. rewrite bpow_plus, (Rmult_comm (bpow _ e1)), <- Rmult_assoc.
    apply Rmult_lt_compat_r; [apply bpow_gt_0|].
    apply Rlt_le_trans with (IZR (Z.pos m2) * bpow radix2 1).
    + change (bpow radix2 1) with (IZR 2). rewrite <- mult_IZR. apply IZR_lt. lia.
    + apply Rmult_le_compat_l; [apply IZR_le; lia|]. apply bpow_le. lia.
Qed.

Lemma to_bits_lt f g : nn f -> nn g -> (f32_to_bits f < f32_to_bits g)%N -> val f < val g.
Proof.
  intros Hf Hg. apply nn_iff in Hf, Hg.
  destruct f as [s|s| |s m e]; try contradiction; destruct g as [s'|s'| |s' m' e']; try contradiction.
  - subst. intro H. destruct (N.lt_irrefl _ H).
  - subst. intros _. unfold val. cbn [SF2R]. destruct Hg as [-> _]. apply F2R_gt_0. cbn. lia.
  - subst. change (f32_to_bits (S754_zero false)) with 0%N. intro H. destruct (N.nlt_0_r _ H).
  - destruct Hf as [-> Hf], Hg as [-> Hg]. pose proof (to_bits_shape _ _ Hf). pose proof (to_bits_shape _ _ Hg).
    intro L. unfold val. cbn [SF2R cond_Zopp]. apply F2R_lt; auto. lia.
Qed.

Lemma bits_lt_iff f g : nn f -> nn g -> (f32_to_bits f < f32_to_bits g)%N <-> val f < val g.
Proof.
  intros Hf Hg. split; [apply to_bits_lt; auto|]. intro H.
  destruct (N.lt_trichotomy (f32_to_bits f) (f32_to_bits g)) as [L|[E|L]]; auto; exfalso.
  - rewrite <- (from_to f), <- (from_to g), E in H by auto. lra.
  - apply to_bits_lt in L; auto. lra.
Qed.

Lemma bits_le_iff f g : nn f -> nn g -> (f32_to_bits f <= f32_to_bits g)%N <-> val f <= val g.
Proof. intros Hf Hg. pose proof (bits_lt_iff g f Hg Hf) as H. rewrite <- N.nlt_ge, H. split; lra. Qed.

Definition bval (b : N) : R := val (f32_from_bits b).

Lemma bval_lt a b : (a <= FIN)%N -> (b <= FIN)%N -> (a < b)%N <-> bval a < bval b.
Proof. intros A B. unfold bval. rewrite <- bits_lt_iff by (apply from_bits_nn; auto). rewrite !to_from by auto. tauto. Qed.
Lemma bval_le a b : (a <= FIN)%N -> (b <= FIN)%N -> (a <= b)%N <-> bval a <= bval b.
Proof. intros A B. unfold bval. rewrite <- bits_le_iff by (apply from_bits_nn; auto). rewrite !to_from by auto. tauto. Qed.
Lemma bval_to f : nn f -> bval (f32_to_bits f) = val f.
Proof. intro H. unfold bval. rewrite from_to; auto. Qed.
