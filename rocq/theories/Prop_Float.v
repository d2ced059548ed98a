(** The floating-point numbers of the model are those of IEEE 754 (C50). *)
From Coq Require Import NArith ZArith List Bool Floats.SpecFloat Reals Lia ZifyN ZifyNat ZifyBool.
From Flocq Require Import Core.Core IEEE754.BinarySingleNaN IEEE754.Binary IEEE754.Bits.
From Verif Require Import Model_Base Model_Vsids Proof_Float.
Local Open Scope Z_scope.

Lemma z_land_pow x k : 0 <= k -> Z.land x (2 ^ k - 1) = x mod 2 ^ k.
Proof. intro H. rewrite <- Z.land_ones by auto. f_equal. rewrite Z.ones_equiv. lia. Qed.

(** ** C50, the model of [f32] *)
(** [from_bits] is the decoding of IEEE 754 single-precision numbers (Flocq's
    definition), [to_bits] the encoding. *)
Theorem f32_bits_ieee :
  (forall b, (b < 4294967296)%N -> f32_from_bits b = Binary.B2SF 24 128 (b32_of_bits (Z.of_N b))) /\
  (forall x : binary32, Binary.is_nan 24 128 x = false -> Z.of_N (f32_to_bits (Binary.B2SF 24 128 x)) = bits_of_b32 x).
Proof.
  split.
  - intros b Hb. unfold b32_of_bits, binary_float_of_bits. rewrite Binary.B2SF_FF2B. unfold binary_float_of_bits_aux, split_bits, f32_from_bits.
    change (2 ^ 23) with 8388608. change (2 ^ 8) with 256.
    assert (Hs : N.testbit b 31 = (8388608 * 256 <=? Z.of_N b)).
    { rewrite N.testbit_eqb. change (2 ^ 31)%N with 2147483648%N. assert (Q : (b / 2147483648 = 0 \/ b / 2147483648 = 1)%N) by (assert (b / 2147483648 < 2)%N by (apply N.div_lt_upper_bound; lia); lia).
      pose proof (N.div_mod b 2147483648 ltac:(lia)). pose proof (N.mod_lt b 2147483648 ltac:(lia)). destruct Q as [Q|Q]; rewrite Q in *; cbn [N.modulo N.eqb]; lia. }
    assert (He : Z.of_N (N.land (N.shiftr b 23) 255) = Z.of_N b / 8388608 mod 256).
    { rewrite (N.land_ones _ 8). rewrite N.shiftr_div_pow2, N2Z.inj_mod, N2Z.inj_div. reflexivity. }
    assert (Hm : Z.of_N (N.land b 8388607) = Z.of_N b mod 8388608).
    { rewrite (N.land_ones _ 23). rewrite N2Z.inj_mod. reflexivity. }
    rewrite Hs, <- He, <- Hm. set (s := _ <=? _). set (e := N.land (N.shiftr b 23) 255). set (m := N.land b 8388607).
    change (2 ^ 8 - 1) with 255. change (256 - 1) with 255.
    assert (E0 : Zeq_bool (Z.of_N e) 0 = (e =? 0)%N) by (rewrite Zeq_is_eq_bool || idtac; unfold Zeq_bool; destruct (N.eqb_spec e 0) as [->|]; [reflexivity|]; destruct (Z.compare_spec (Z.of_N e) 0); lia || reflexivity).
    assert (E1 : Zeq_bool (Z.of_N e) 255 = (e =? 255)%N) by (unfold Zeq_bool; destruct (N.eqb_spec e 255) as [->|]; [reflexivity|]; destruct (Z.compare_spec (Z.of_N e) 255); lia || reflexivity).
    rewrite E0, E1. destruct (e =? 0)%N; [destruct m; reflexivity|]. destruct (e =? 255)%N; [destruct m; reflexivity|].
    replace (Z.of_N m + 8388608) with (Z.of_N (m + 8388608)) by lia. destruct (m + 8388608)%N as [|q] eqn:Q; [lia|]. cbn [Z.of_N FF2SF]. f_equal. 
    unfold SpecFloat.emin. lia.
  - intros x Hx. destruct x as [s|s|s pl H|s m e H]; [destruct s; reflexivity|destruct s; reflexivity|discriminate|].
    cbn [Binary.B2SF f32_to_bits]. unfold bits_of_b32, bits_of_binary_float. 
    change (2 ^ 23) with 8388608. apply bounded_iff in H as HB.
    unfold join_bits, SpecFloat.emin. rewrite !Z.shiftl_mul_pow2 by lia. change (2 ^ 8) with 256. change (2 ^ 23) with 8388608.
    destruct (N.ltb_spec (N.pos m) 8388608) as [L|L]; destruct (Z.leb_spec 0 (Z.pos m - 8388608)) as [L'|L']; try lia.
    + destruct s; lia.
    + rewrite N.shiftl_mul_pow2. change (2 ^ 23)%N with 8388608%N. destruct s; lia.
Qed.

Lemma div_equiv (x y : BinarySingleNaN.binary_float 24 128) :
  f32_div (BinarySingleNaN.B2SF x) (BinarySingleNaN.B2SF y) = BinarySingleNaN.B2SF (BinarySingleNaN.Bdiv mode_NE x y).
Proof.
  case x as [sx|sx| |sx mx ex Bx]; case y as [sy|sy| |sy my ey By]; auto.
  unfold f32_div. simpl. rewrite BinarySingleNaN.B2SF_SF2B.
  set (melz := SFdiv_core_binary _ _ _ _ _ _). case melz as [[mz ez] lz]. apply binary_round_aux_equiv.
Qed.
Lemma B2SF_BSN n x : Binary.B2SF 24 128 (BSN2B 24 128 n x) = BinarySingleNaN.B2SF x.
Proof. rewrite <- B2SF_B2BSN, B2BSN_BSN2B. reflexivity. Qed.

(** Sums, products and quotients are rounded to nearest, ties to even; [<] is the
    comparison of numbers (false if one is not a number). *)
Theorem f32_arith_ieee (x y : binary32) :
  f32_add (Binary.B2SF 24 128 x) (Binary.B2SF 24 128 y) = Binary.B2SF 24 128 (b32_plus mode_NE x y) /\
  f32_mul (Binary.B2SF 24 128 x) (Binary.B2SF 24 128 y) = Binary.B2SF 24 128 (b32_mult mode_NE x y) /\
  f32_div (Binary.B2SF 24 128 x) (Binary.B2SF 24 128 y) = Binary.B2SF 24 128 (b32_div mode_NE x y) /\
  SFltb (Binary.B2SF 24 128 x) (Binary.B2SF 24 128 y) = match b32_compare x y with Some Lt => true | _ => false end.
Proof.
  unfold b32_plus, b32_mult, b32_div, b32_compare, Binary.Bplus, Binary.Bmult, Binary.Bdiv, Binary.Bcompare. rewrite !B2SF_BSN, <- !(B2SF_B2BSN 24 128).
  split; [apply add_equiv|]. split; [apply mul_equiv|]. split; [apply div_equiv|]. reflexivity.
Qed.

(** The constants of the code: one, 0.95 (the nearest number to 95 / 100), and the
    rescaling limit, the largest number over 16. *)
Example f32_constants :
  F32_ONE = S754_finite false 8388608 (-23) /\
  f32_div (S754_finite false 12451840 (-17)) (S754_finite false 13107200 (-17)) = f32_from_bits 1064514355 /\
  f32_from_bits 1064514355 = S754_finite false 15938355 (-24) /\
  RESCALE_LIMIT = S754_finite false 16777215 100.
Proof. repeat split; vm_compute; reflexivity. Qed.

Print Assumptions f32_bits_ieee.
Print Assumptions f32_arith_ieee.
