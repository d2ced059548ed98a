(** binary64 arithmetic of the reduction interval: the computed
    [(2000.0 * (n as f64).sqrt()) as u64] is exactly the integer square root of
    [4000000 n], for [n] up to 2^28. *)
From Coq Require Import NArith ZArith List Bool Arith Floats.SpecFloat Reals Lia Lra Psatz ZifyN ZifyNat ZifyBool.
From Flocq Require Import Core.Core IEEE754.BinarySingleNaN.
From Verif Require Import Model_Solver Proof_Float.
Local Open Scope R_scope.

Notation fx64 := (FLT_exp (-1074) 53).
Notation rnd64 := (round radix2 fx64 ZnearestE).
Notation dfloat := (binary_float 53 1024).
#[global] Instance Hprec64 : FLX.Prec_gt_0 53 := eq_refl.
#[global] Instance Hmax64 : Prec_lt_emax 53 1024 := eq_refl.

(** ** SpecFloat = Flocq *)
Lemma binary_round_aux_equiv64 sx mx ex lx :
  SpecFloat.binary_round_aux 53 1024 sx mx ex lx = BinarySingleNaN.binary_round_aux 53 1024 mode_NE sx mx ex lx.
Proof.
  unfold SpecFloat.binary_round_aux, BinarySingleNaN.binary_round_aux.
  set (mrse' := shr_fexp _ _ _ _ _). case mrse'; intros mrs' e'; simpl.
  now rewrite (round_nearest_even_equiv sx).
Qed.

Lemma binary_round_equiv64 s m e :
  SpecFloat.binary_round 53 1024 s m e = BinarySingleNaN.binary_round 53 1024 mode_NE s m e.
Proof.
  unfold SpecFloat.binary_round, BinarySingleNaN.binary_round, shl_align_fexp.
  set (mez := shl_align _ _ _); case mez; intros mz ez.
  apply binary_round_aux_equiv64.
Qed.

Lemma normalize_equiv64 m e szero :
  SpecFloat.binary_normalize 53 1024 m e szero = B2SF (BinarySingleNaN.binary_normalize 53 1024 _ _ mode_NE m e szero).
Proof.
  case m as [|p|p].
  - now simpl.
  - simpl. rewrite B2SF_SF2B. apply binary_round_equiv64.
  - simpl. rewrite B2SF_SF2B. apply binary_round_equiv64.
Qed.

Lemma mul_equiv64 (x y : dfloat) : SFmul 53 1024 (B2SF x) (B2SF y) = B2SF (Bmult mode_NE x y).
Proof.
  case x as [sx|sx| |sx mx ex Bx]; case y as [sy|sy| |sy my ey By]; auto.
  simpl. rewrite B2SF_SF2B. apply binary_round_aux_equiv64.
Qed.

Lemma sqrt_equiv64 (x : dfloat) : SFsqrt 53 1024 (B2SF x) = B2SF (Bsqrt mode_NE x).
Proof.
  case x as [sx|sx| |sx mx ex Bx]; [now (trivial || case sx).. | ].
  case sx; [reflexivity | ]. simpl. rewrite B2SF_SF2B.
  set (melz := SFsqrt_core_binary _ _ _ _). case melz as [[mz ez] lz]. apply binary_round_aux_equiv64.
Qed.

(** ** Rounding *)
Lemma rnd64_mono x y : x <= y -> rnd64 x <= rnd64 y.
Proof. apply round_le; auto with typeclass_instances. Qed.
Lemma rnd64_id x : generic_format radix2 fx64 x -> rnd64 x = x.
Proof. apply round_generic; auto with typeclass_instances. Qed.

Lemma int_fmt z : (Z.abs z < 2 ^ 53)%Z -> generic_format radix2 fx64 (IZR z).
Proof.
  intro H. apply generic_format_FLT. exists (Float radix2 z 0).
  - unfold F2R; cbn [Fnum Fexp]. change (e2 0) with 1. lra.
  - exact H.
  - cbn [Fexp]. lia.
Qed.

Lemma rnd64_err x : 1 <= x -> Rabs (rnd64 x - x) <= x * e2 (-53).
Proof.
  intro H. pose proof (error_le_half_ulp radix2 fx64 (fun z => negb (Z.even z)) x) as E.
  apply Rle_trans with (1 := E).
  assert (U : ulp radix2 fx64 x <= Rabs x * e2 (1 - 53)).
  { apply ulp_FLT_le. apply Rle_trans with (e2 0). { apply bpow_le. lia. } rewrite Rabs_pos_eq by lra. exact H. }
  rewrite Rabs_pos_eq in U by lra. replace (e2 (-53)) with (/ 2 * e2 (1 - 53)); [nra|].
  change (1 - 53)%Z with (1 + -53)%Z. rewrite bpow_plus. change (e2 1) with 2. field.
Qed.

Lemma bpow_le_val x e : x <= e2 e -> (e <= 1023)%Z -> (-1074 <= e)%Z -> rnd64 x <= e2 e.
Proof.
  intros H H1 H2. rewrite <- (rnd64_id (e2 e)); [apply rnd64_mono; auto|]. apply generic_format_bpow. unfold FLT_exp. lia.
Qed.

Lemma of_N_ok n : (n < 2 ^ 53)%N -> exists x : dfloat, f64_of_N n = B2SF x /\ B2R x = IZR (Z.of_N n) /\ is_finite x = true /\ Bsign x = false.
Proof.
  intro H. unfold f64_of_N. rewrite normalize_equiv64. eexists. split; [reflexivity|].
  pose proof (binary_normalize_correct 53 1024 _ _ mode_NE (Z.of_N n) 0 false) as G. cbv zeta in G.
  change (SpecFloat.fexp 53 1024) with fx64 in G. cbn [round_mode] in G.
  assert (V : F2R (Float radix2 (Z.of_N n) 0) = IZR (Z.of_N n)).
  { unfold F2R; cbn [Fnum Fexp]. change (e2 0) with 1. lra. }
  rewrite V in G. rewrite rnd64_id in G by (apply int_fmt; change (2 ^ 53)%N with 9007199254740992%N in H; change (2 ^ 53)%Z with 9007199254740992%Z; lia).
  assert (P : 0 <= IZR (Z.of_N n)) by (apply IZR_le; lia).
  rewrite Rlt_bool_true in G.
  2:{ rewrite Rabs_pos_eq by auto. apply Rlt_trans with (e2 53); [|apply bpow_lt; lia]. change (e2 53) with (IZR (2 ^ 53)). apply IZR_lt.
      change (2 ^ 53)%N with 9007199254740992%N in H; change (2 ^ 53)%Z with 9007199254740992%Z; lia. }
  destruct G as (G1 & G2 & G3). split; auto. split; auto. rewrite G3. destruct (Rcompare_spec (IZR (Z.of_N n)) 0); auto; lra.
Qed.

Lemma to_u64_val m e : match e with Z0 => Npos m | Zpos p => N.shiftl (Npos m) (Npos p) | Zneg p => N.shiftr (Npos m) (Npos p) end = Z.to_N (Zfloor (IZR (Z.pos m) * e2 e)).
Proof.
  destruct e as [|p|p].
  - change (e2 0) with 1. rewrite Rmult_1_r, Zfloor_IZR. reflexivity.
  - change (e2 (Z.pos p)) with (IZR (Z.pow_pos radix2 p)). rewrite <- mult_IZR, Zfloor_IZR. change (Z.pow_pos radix2 p) with (2 ^ Z.pos p)%Z.
    rewrite N.shiftl_mul_pow2, Z2N.inj_mul, Z2N.inj_pow by lia. reflexivity.
  - change (e2 (Z.neg p)) with (/ IZR (Z.pow_pos radix2 p)). change (Z.pow_pos radix2 p) with (2 ^ Z.pos p)%Z. fold (Rdiv (IZR (Z.pos m)) (IZR (2 ^ Z.pos p))).
    rewrite Zfloor_div by (pose proof (Z.pow_pos_nonneg 2 (Z.pos p)); lia).
    rewrite N.shiftr_div_pow2, Z2N.inj_div, Z2N.inj_pow by (try lia; pose proof (Z.pow_pos_nonneg 2 (Z.pos p)); lia). reflexivity.
Qed.

Lemma to_u64_ok (x : dfloat) : is_finite x = true -> Bsign x = false -> B2R x < e2 63 -> f64_to_u64 (B2SF x) = Z.to_N (Zfloor (B2R x)).
Proof.
  intros F S B. destruct x as [s|s| |s m e Hb]; try discriminate.
  - cbn [B2SF f64_to_u64 B2R]. change 0 with (IZR 0). rewrite Zfloor_IZR. reflexivity.
  - cbn [Bsign] in S. subst s. cbn [B2SF f64_to_u64 B2R cond_Zopp] in *. unfold F2R in *; cbn [Fnum Fexp] in *.
    rewrite to_u64_val. apply N.min_l. assert (L : (Zfloor (IZR (Z.pos m) * e2 e) < 2 ^ 63)%Z).
    { apply lt_IZR. apply Rle_lt_trans with (1 := Zfloor_lb _). exact B. }
    change (2 ^ 63)%Z with 9223372036854775808%Z in L. lia.
Qed.

(** ** Integer square roots *)
Lemma square_step p m q : (p = 2 \/ p = 5)%Z -> (m * m = p * p * q)%Z -> exists m', (m = p * m')%Z /\ (m' * m' = q)%Z.
Proof.
  intros Hp H. exists (m / p)%Z. assert (D : (m mod p = 0)%Z).
  { pose proof (Z.div_mod m p ltac:(lia)) as E. pose proof (Z.mod_pos_bound m p ltac:(lia)) as B.
    set (k := (m / p)%Z) in *. set (r := (m mod p)%Z) in *. clearbody k r. subst m. destruct Hp as [-> | ->].
    - assert (r = 0 \/ r = 1)%Z by lia. destruct H0; subst; auto. exfalso. nia.
    - assert (C : (r = 0 \/ r = 1 \/ r = 2 \/ r = 3 \/ r = 4)%Z) by lia. destruct C as [C|[C|[C|[C|C]]]]; subst r; auto; exfalso; ring_simplify in H; lia. }
  pose proof (Z.div_mod m p ltac:(lia)) as E. rewrite D in E. split; [lia|]. set (k := (m / p)%Z) in *. clearbody k.
  rewrite Z.add_0_r in E. subst m. destruct Hp as [-> | ->]; lia.
Qed.

Lemma square_2000 m n : (0 <= m)%Z -> (m * m = 4000000 * n)%Z -> exists k, (0 <= k)%Z /\ (m = 2000 * k)%Z /\ (n = k * k)%Z.
Proof.
  intros Hm H.
  destruct (square_step 5 m (160000 * n)) as (m1 & E1 & H1); [lia|lia|].
  destruct (square_step 5 m1 (6400 * n)) as (m2 & E2 & H2); [lia|lia|].
  destruct (square_step 5 m2 (256 * n)) as (m3 & E3 & H3); [lia|lia|].
  destruct (square_step 2 m3 (64 * n)) as (m4 & E4 & H4); [lia|lia|].
  destruct (square_step 2 m4 (16 * n)) as (m5 & E5 & H5); [lia|lia|].
  destruct (square_step 2 m5 (4 * n)) as (m6 & E6 & H6); [lia|lia|].
  destruct (square_step 2 m6 n) as (m7 & E7 & H7); [lia|lia|].
  exists m7. split; [lia|]. split; lia.
Qed.

Lemma sqrt_N_Z n : Z.to_N (Z.sqrt (4000000 * Z.of_N n)) = N.sqrt (4000000 * n).
Proof.
  symmetry. apply N.sqrt_unique. assert (H : (0 <= 4000000 * Z.of_N n)%Z) by lia. pose proof (Z.sqrt_spec _ H) as M. cbv zeta in M.
  pose proof (Z.sqrt_nonneg (4000000 * Z.of_N n)). set (m := Z.sqrt _) in *. clearbody m. cbv zeta. lia.
Qed.

(** ** The interval *)
Lemma floor_2000 (n : Z) : (1 <= n <= 2 ^ 28)%Z ->
  let s := rnd64 (sqrt (IZR n)) in let p := rnd64 (2000 * s) in
  1 <= s <= 16385 /\ 2000 * s <= e2 25 /\ 0 <= p <= e2 25 /\ Zfloor p = Z.sqrt (4000000 * n).
Proof.
  intros Hn s p. change (2 ^ 28)%Z with 268435456%Z in Hn.
  assert (N1 : 1 <= IZR n <= 268435456) by (split; apply IZR_le; lia).
  set (q := sqrt (IZR n)) in *. assert (Q2 : q * q = IZR n) by (apply sqrt_sqrt; lra).
  assert (Q0 : 0 <= q) by apply sqrt_pos. assert (Q1 : 1 <= q <= 16384) by (split; nra).
  assert (P53 : e2 (-53) = / 9007199254740992) by reflexivity.
  pose proof (rnd64_err q (proj1 Q1)) as ES. rewrite P53 in ES. fold s in ES. apply Rabs_le_inv in ES.
  assert (S1 : 1 <= s). { unfold s. rewrite <- (rnd64_id 1); [apply rnd64_mono; lra|]. apply (int_fmt 1). reflexivity. }
  assert (S2 : s <= 16385) by nra. assert (B25 : e2 25 = 33554432) by reflexivity.
  assert (S3 : 2000 * s <= e2 25). { rewrite B25. nra. }
  split; [lra|]. split; auto.
  assert (S4 : p <= e2 25). { apply bpow_le_val; auto; lia. }
  assert (S5 : 0 <= p). { unfold p. rewrite <- (rnd64_id 0) by apply generic_format_0. apply rnd64_mono. lra. }
  split; auto.
  pose proof (rnd64_err (2000 * s) ltac:(lra)) as EP. rewrite P53 in EP. fold p in EP. apply Rabs_le_inv in EP.
  pose proof (Z.sqrt_spec (4000000 * n) ltac:(lia)) as M. set (m := Z.sqrt (4000000 * n)) in *.
  assert (M0 : (0 <= m)%Z) by apply Z.sqrt_nonneg. cbv zeta in M. change (Z.succ m) with (m + 1)%Z in M.
  apply Zfloor_imp. rewrite plus_IZR.
  assert (MR0 : 0 <= IZR m) by (apply IZR_le; auto).
  assert (QQ : (2000 * q) * (2000 * q) = IZR (4000000 * n)). { rewrite mult_IZR. nra. }
  assert (U : IZR (4000000 * n) + 1 <= (IZR m + 1) * (IZR m + 1)).
  { replace ((IZR m + 1) * (IZR m + 1)) with (IZR ((m + 1) * (m + 1))) by (rewrite mult_IZR, plus_IZR; ring).
    replace (IZR (4000000 * n) + 1) with (IZR (4000000 * n + 1)) by (rewrite plus_IZR; ring). apply IZR_le. lia. }
  destruct (Z.eq_dec (m * m) (4000000 * n)) as [E|E].
  - (* exact *)
    destruct (square_2000 m n M0 E) as (k & K0 & K1 & K2).
    assert (q = IZR k). { unfold q. rewrite K2, mult_IZR. apply sqrt_square. apply IZR_le; auto. }
    assert (Kb : (k <= 16384)%Z). { apply le_IZR. lra. }
    assert (Es : s = IZR k). { unfold s. rewrite H. apply rnd64_id, int_fmt. change (2 ^ 53)%Z with 9007199254740992%Z. lia. }
    assert (Ep : p = IZR m). { unfold p. rewrite Es, K1, <- mult_IZR. apply rnd64_id, int_fmt. change (2 ^ 53)%Z with 9007199254740992%Z. lia. }
    rewrite Ep. lra.
  - assert (V : IZR m * IZR m + 1 <= IZR (4000000 * n)).
    { replace (IZR m * IZR m + 1) with (IZR (m * m + 1)) by (rewrite plus_IZR, mult_IZR; ring). apply IZR_le. lia. }
    rewrite <- QQ in U, V.
    set (t := 2000 * q) in *. assert (T1 : 2000 <= t <= 32768000) by (unfold t; lra).
    assert (T2 : IZR m <= t) by nra. assert (T3 : t <= IZR m + 1) by nra.
    assert (D1 : / 65536002 <= t - IZR m).
    { apply Rmult_le_reg_r with (t + IZR m); [lra|]. apply Rle_trans with 1; [|nra].
      apply Rmult_le_reg_l with 65536002; [lra|]. rewrite <- Rmult_assoc, Rinv_r by lra. lra. }
    assert (D2 : / 65536002 <= IZR m + 1 - t).
    { apply Rmult_le_reg_r with (t + IZR m + 1); [lra|]. apply Rle_trans with 1; [|nra].
      apply Rmult_le_reg_l with 65536002; [lra|]. rewrite <- Rmult_assoc, Rinv_r by lra. lra. }
    assert (ST : t - / 1000000000 * 4 <= 2000 * s <= t + / 1000000000 * 4).
    { unfold t. split; lra. }
    split.
    + unfold p. rewrite <- (rnd64_id (IZR m)); [apply rnd64_mono; lra|]. apply int_fmt.
      assert (m < 32768001)%Z by (apply lt_IZR; lra). change (2 ^ 53)%Z with 9007199254740992%Z. lia.
    + lra.
Qed.

Lemma interval_exact (n : N) : (1 <= n <= 2 ^ 28)%N -> reduce_interval n = N.sqrt (4000000 * n).
Proof.
  intro Hn. change (2 ^ 28)%N with 268435456%N in Hn. unfold reduce_interval.
  destruct (of_N_ok n ltac:(change (2 ^ 53)%N with 9007199254740992%N; lia)) as (x & -> & X1 & X2 & X3).
  destruct (of_N_ok 2000 ltac:(reflexivity)) as (c & -> & C1 & C2 & C3). change (IZR (Z.of_N 2000)) with 2000 in C1.
  rewrite sqrt_equiv64, mul_equiv64.
  destruct (floor_2000 (Z.of_N n) ltac:(change (2 ^ 28)%Z with 268435456%Z; lia)) as ([S1 S2] & S3 & [S4 S5] & S6).
  destruct (Bsqrt_correct 53 1024 _ _ mode_NE x) as (R1 & R2 & R3). change (SpecFloat.fexp 53 1024) with fx64 in R1. cbn [round_mode] in R1. rewrite X1 in R1.
  set (sq := Bsqrt mode_NE x) in *. set (s := rnd64 (sqrt (IZR (Z.of_N n)))) in *.
  assert (F : is_finite sq = true). { rewrite R2. destruct x as [sx|sx| |sx mx ex Bx]; cbn in *; subst; auto; discriminate. }
  assert (NN : is_nan sq = false). { destruct sq; auto; discriminate. }
  specialize (R3 NN). rewrite X3 in R3.
  pose proof (Bmult_correct 53 1024 _ _ mode_NE c sq) as G. change (SpecFloat.fexp 53 1024) with fx64 in G. cbn [round_mode] in G. rewrite C1, R1 in G.
  rewrite Rlt_bool_true in G.
  2:{ rewrite Rabs_pos_eq by auto. apply Rle_lt_trans with (1 := S5). apply bpow_lt. reflexivity. }
  destruct G as (G1 & G2 & G3). rewrite C2, F in G2. 
  rewrite to_u64_ok; auto.
  - rewrite G1, S6. apply sqrt_N_Z.
  - rewrite G3, C3, R3; auto. destruct (Bmult mode_NE c sq); auto; discriminate.
  - rewrite G1. apply Rle_lt_trans with (1 := S5). apply bpow_lt. reflexivity.
Qed.
