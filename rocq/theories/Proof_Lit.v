(** Literal encodings. *)
From Coq Require Import NArith ZArith List Bool Arith Lia ZifyN ZifyNat ZifyBool.
From Verif Require Import Model_Base Model_Lit Spec Spec_Format Proof_Base Proof_PA Proof_Header.
Import ListNotations.
Local Open Scope N_scope.

Lemma lit_from_var_mk v b : lit_from_var v b = mklit v b.
Proof.
  unfold lit_from_var, mklit. rewrite N.shiftl_mul_pow2.
  rewrite lor_disjoint by (destruct b; reflexivity). change (2 ^ 1) with 2. lia.
Qed.

Lemma mklit_valid v b : v < 1073741824 <-> valid (mklit v b).
Proof. unfold valid, mklit. destruct b; lia. Qed.

Lemma var_from_index_ok v : v < 1073741824 -> var_from_index v = Ret v.
Proof. intro H. unfold var_from_index. change MAX_INDEX with 1073741823.
  destruct (N.leb_spec v 1073741823); [reflexivity|lia]. Qed.
Lemma var_from_index_bad v : 1073741824 <= v -> var_from_index v = Panic PAssert.
Proof. intro H. unfold var_from_index. change MAX_INDEX with 1073741823.
  destruct (N.leb_spec v 1073741823); [lia|reflexivity]. Qed.

Lemma from_index_ok v b : v < 1073741824 -> lit_from_index v b = Ret (mklit v b).
Proof. intro H. unfold lit_from_index. rewrite var_from_index_ok by auto. simpl.
  rewrite lit_from_var_mk. reflexivity. Qed.

Lemma lit_var_mk v b : lit_var (mklit v b) = v.
Proof. rewrite lit_var_div. apply mklit_var. Qed.
Lemma lit_pos_mk v b : lit_is_positive (mklit v b) = b.
Proof. rewrite lit_pos_odd. apply mklit_odd. Qed.
Lemma lit_negative_pos l : lit_is_negative l = negb (lit_is_positive l).
Proof. unfold lit_is_negative, lit_is_positive. rewrite negb_involutive. reflexivity. Qed.

Lemma from_dimacs_ok z : (0 < Z.abs z <= 1073741824)%Z ->
  lit_from_dimacs z = Ret (mklit (Z.to_N (Z.abs z - 1)) (0 <? z)%Z).
Proof.
  intro H. unfold lit_from_dimacs, var_from_dimacs.
  destruct (Z.ltb_spec 0 (Z.abs z)); [|lia]. simpl.
  rewrite var_from_index_ok by lia. simpl. rewrite lit_from_var_mk. reflexivity.
Qed.

Lemma dimacs_mk v b : lit_dimacs (mklit v b) = if b then Z.of_N (v + 1) else (- Z.of_N (v + 1))%Z.
Proof. unfold lit_dimacs, var_dimacs. rewrite lit_var_mk, lit_pos_mk. destruct b; lia. Qed.

Lemma from_dimacs_bad z : ~ (0 < Z.abs z <= 1073741824)%Z -> lit_from_dimacs z = Panic PAssert.
Proof.
  intro H. unfold lit_from_dimacs, var_from_dimacs.
  destruct (Z.ltb_spec 0 (Z.abs z)); simpl; [|reflexivity].
  rewrite var_from_index_bad by lia. reflexivity.
Qed.

Lemma dimacs_roundtrip l : valid l -> lit_from_dimacs (lit_dimacs l) = Ret l.
Proof.
  intro H. rewrite (lit_mklit l) in *. set (v := l / 2) in *. set (b := N.odd l) in *.
  apply mklit_valid in H. rewrite dimacs_mk. rewrite from_dimacs_ok by (destruct b; lia).
  f_equal. f_equal; destruct b; lia.
Qed.

Lemma dimacs_of_from z l : lit_from_dimacs z = Ret l -> lit_dimacs l = z /\ valid l.
Proof.
  intro H. destruct (Z_lt_le_dec 0 (Z.abs z)), (Z_le_gt_dec (Z.abs z) 1073741824);
    try (rewrite from_dimacs_bad in H by lia; discriminate).
  rewrite from_dimacs_ok in H by lia. inv H. split.
  - rewrite dimacs_mk. destruct (Z.ltb_spec 0 z); lia.
  - apply mklit_valid. lia.
Qed.

Lemma select_other_first dbg a b : select_other dbg a a b = Ret b.
Proof.
  unfold select_other. rewrite N.eqb_refl. rewrite N.lxor_nilpotent, N.lxor_0_l.
  destruct dbg; reflexivity.
Qed.
Lemma select_other_second dbg a b : select_other dbg b a b = Ret a.
Proof.
  unfold select_other. rewrite N.eqb_refl, orb_true_r.
  rewrite (N.lxor_comm b a), N.lxor_assoc, N.lxor_nilpotent, N.lxor_0_r.
  destruct dbg; reflexivity.
Qed.

Lemma lnot_valid l : valid l -> valid (lnot l).
Proof.
  rewrite lnot_neg. intro H. unfold neg, valid in *. destruct (N.odd l) eqn:E; [lia|].
  assert (l <> 2147483647); [|lia]. intros ->. discriminate.
Qed.
Lemma lit_xor_bool_spec l b : lit_xor_bool l b = if b then neg l else l.
Proof. unfold lit_xor_bool. destruct b; [apply lnot_neg|apply N.lxor_0_r]. Qed.
Lemma dimacs_lnot l : lit_dimacs (lnot l) = (- lit_dimacs l)%Z.
Proof.
  rewrite lnot_neg. unfold lit_dimacs, var_dimacs. rewrite !lit_var_div, !lit_pos_odd, neg_var, neg_odd.
  destruct (N.odd l); simpl negb; cbv iota; lia.
Qed.
