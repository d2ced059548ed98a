(** C54: the reduction schedule. *)
From Coq Require Import NArith ZArith List Bool Arith Floats.SpecFloat Reals Lia Lra ZifyN ZifyNat ZifyBool.
From Flocq Require Import Core.Core IEEE754.BinarySingleNaN.
From Verif Require Import Model_Base Model_Prop Model_Solver Spec Drivers_Solver Proof_Select Proof_Sched Proof_Float Proof_F64 Examples_Solver.
Import ListNotations.

(** The sum of floor(2000 sqrt i) for i from 1 to [k]. *)
Fixpoint reduce_due (k : nat) : N :=
  match k with O => 0 | S k' => reduce_due k' + N.sqrt (2000 * 2000 * N.of_nat k) end%N.

Lemma due_sum k : (N.of_nat k <= 2 ^ 28)%N -> red_sum k = reduce_due k.
Proof.
  induction k as [|k IH]; intro H; [reflexivity|]. cbn [red_sum reduce_due]. rewrite IH by lia. f_equal.
  change (2000 * 2000)%N with 4000000%N. apply interval_exact. lia.
Qed.

(** A search step reduces the clause database if and only if the number of
    conflicts so far is at least the sum of floor(2000 sqrt i) over the
    reductions so far, and then once.  (For the first 2^28 reductions, that is
    for more than 5 * 10^15 conflicts.) *)
Theorem reduce_schedule select dbg F s r cx st :
  reach select dbg F s -> schedule_search_step select dbg (so_ctx s) (so_state s) = Ret (r, cx, st) ->
  let k := st_reductions (cx_stats (so_ctx s)) in
  (N.of_nat k <= 2 ^ 28)%N ->
  st_reductions (cx_stats cx) = if (reduce_due k <=? N.of_nat (st_conflicts (cx_stats (so_ctx s))))%N then S k else k.
Proof.
  intros H E k Hk. destruct (RSI_reach _ _ _ _ H) as [_ A]. apply sched_reduce in E. rewrite A in E.
  change (reds (so_ctx s)) with k in E. rewrite due_sum in E by auto. change (confs (so_ctx s)) with (st_conflicts (cx_stats (so_ctx s))) in E.
  destruct (_ <=? _)%N; apply E.
Qed.

(** The conversions and the rounding to binary64 in the computation of the
    interval change nothing. *)
Theorem reduce_interval_exact n : (1 <= n <= 2 ^ 28)%N -> reduce_interval n = N.sqrt (2000 * 2000 * n).
Proof. apply interval_exact. Qed.

(** The numbers of this computation are those of IEEE 754: the conversion from
    integers rounds to the nearest double, product and square root are the correctly
    rounded ones, and the conversion back truncates and saturates. *)
Theorem f64_ieee :
  (forall n, f64_of_N n = B2SF (binary_normalize 53 1024 _ _ mode_NE (Z.of_N n) 0 false)) /\
  (forall x y : binary_float 53 1024, SFmul 53 1024 (B2SF x) (B2SF y) = B2SF (Bmult mode_NE x y)) /\
  (forall x : binary_float 53 1024, SFsqrt 53 1024 (B2SF x) = B2SF (Bsqrt mode_NE x)) /\
  (forall x : binary_float 53 1024, is_finite x = true ->
     Z.of_N (f64_to_u64 (B2SF x)) = Z.max 0 (Z.min (Ztrunc (B2R x)) (2 ^ 64 - 1))) /\
  f64_to_u64 (B2SF (B754_infinity false : binary_float 53 1024)) = (2 ^ 64 - 1)%N /\
  f64_to_u64 (B2SF (B754_infinity true : binary_float 53 1024)) = 0%N /\
  f64_to_u64 (B2SF (B754_nan : binary_float 53 1024)) = 0%N.
Proof.
  split; [intro; apply normalize_equiv64|]. split; [apply mul_equiv64|]. split; [apply sqrt_equiv64|].
  split; [|repeat split]. intros x Hf. destruct x as [s|s| |s m e Hb]; try discriminate.
  - cbn [B2SF f64_to_u64 B2R]. change 0%R with (IZR 0). rewrite Ztrunc_IZR. reflexivity.
  - destruct s.
    + cbn [B2SF f64_to_u64 B2R cond_Zopp]. unfold F2R; cbn [Fnum Fexp].
      assert (Q : (IZR (Z.neg m) * bpow radix2 e <= 0)%R).
      { rewrite <- (Rmult_0_l (bpow radix2 e)). apply Rmult_le_compat_r; [apply bpow_ge_0|apply IZR_le; lia]. }
      rewrite Ztrunc_ceil by exact Q. pose proof (Zceil_le _ _ Q) as L. change 0%R with (IZR 0) in L. rewrite Zceil_IZR in L. set (z := Zceil _) in *. clearbody z. change (2 ^ 64 - 1)%Z with 18446744073709551615%Z. lia.
    + cbn [B2SF f64_to_u64 B2R cond_Zopp]. unfold F2R; cbn [Fnum Fexp].
      assert (Q : (0 <= IZR (Z.pos m) * bpow radix2 e)%R).
      { apply Rmult_le_pos; [apply IZR_le; lia|apply bpow_ge_0]. }
      rewrite Ztrunc_floor by exact Q. rewrite to_u64_val. pose proof (Zfloor_le _ _ Q) as L. change 0%R with (IZR 0) in L. rewrite Zfloor_IZR in L. change (2 ^ 64 - 1)%Z with 18446744073709551615%Z. set (z := Zfloor _) in *. clearbody z. lia.
Qed.
(** 2000 * sqrt 2 is 2828.4..., -1.5 becomes 0 and 2^70 the largest number. *)
Example f64_ieee_example :
  f64_to_u64 (SFmul 53 1024 (f64_of_N 2000) (SFsqrt 53 1024 (f64_of_N 2))) = 2828%N /\
  f64_to_u64 (S754_finite true 3 (-1)) = 0%N /\ f64_to_u64 (f64_of_N (2 ^ 70)) = (2 ^ 64 - 1)%N.
Proof. vm_compute. auto. Qed.

Example reduce_schedule_example :
  let s0 := added true php5 in let s := after true 40 s0 in
  reach select_sort true php5 s0 /\ reach select_sort true php5 s /\
  reduce_due 0 = 0%N /\ st_reductions (cx_stats (so_ctx s0)) = 0 /\ st_conflicts (cx_stats (so_ctx s)) = 17 /\
  st_reductions (cx_stats (so_ctx s)) = 1 /\ reduce_due 1 = 2000%N /\ reduce_due 2 = 4828%N /\ reduce_due 3 = 8292%N.
Proof.
  cbv zeta. split; [constructor; apply php5_built|]. split; [apply reach_after; constructor; apply php5_built|]. vm_compute. repeat split.
Qed.

Print Assumptions reduce_schedule.
Print Assumptions reduce_interval_exact.
Print Assumptions f64_ieee.
