(** The Luby sequence generator. *)
From Coq Require Import NArith List Bool Arith Lia ZifyN ZifyNat ZifyBool.
From Verif Require Import Model_Base Model_Luby Spec Proof_Base.
Local Open Scope N_scope.

Definition low (u : N) : N := N.ldiff u (u - 1).

Lemma ldiff_even_odd a b : N.ldiff (2 * a) (2 * b + 1) = 2 * N.ldiff a b.
Proof.
  apply N.bits_inj. intro i. rewrite N.ldiff_spec.
  destruct (N.zero_or_succ i) as [->|(j & ->)].
  - rewrite !N.testbit_even_0. reflexivity.
  - rewrite !N.testbit_even_succ, N.testbit_odd_succ by lia. symmetry. apply N.ldiff_spec.
Qed.

Lemma ldiff_odd_even a b : N.ldiff (2 * a + 1) (2 * b) = 2 * N.ldiff a b + 1.
Proof.
  apply N.bits_inj. intro i. rewrite N.ldiff_spec.
  destruct (N.zero_or_succ i) as [->|(j & ->)].
  - rewrite !N.testbit_even_0, !N.testbit_odd_0. reflexivity.
  - rewrite !N.testbit_even_succ, !N.testbit_odd_succ by lia. symmetry. apply N.ldiff_spec.
Qed.

Lemma low_even u : 0 < u -> low (2 * u) = 2 * low u.
Proof.
  intro H. unfold low. replace (2 * u - 1) with (2 * (u - 1) + 1) by lia. apply ldiff_even_odd.
Qed.

Lemma low_odd u : low (2 * u + 1) = 1.
Proof.
  unfold low. replace (2 * u + 1 - 1) with (2 * u) by lia. rewrite ldiff_odd_even, N.ldiff_diag. reflexivity.
Qed.

Lemma low_1 : low 1 = 1. Proof. reflexivity. Qed.

Lemma even_odd_cases u : exists h, u = 2 * h \/ u = 2 * h + 1.
Proof. exists (u / 2). pose proof (N.div_mod u 2 ltac:(lia)). pose proof (N.mod_lt u 2 ltac:(lia)). lia. Qed.

Lemma pow2_S k : 2 ^ N.of_nat (S k) = 2 * 2 ^ N.of_nat k.
Proof. rewrite Nat2N.inj_succ, N.pow_succ_r'. reflexivity. Qed.

Lemma pow2_pos k : 0 < 2 ^ N.of_nat k.
Proof. apply N.neq_0_lt_0, N.pow_nonzero. lia. Qed.

Lemma low_pow2 k : low (2 ^ N.of_nat k) = 2 ^ N.of_nat k.
Proof.
  induction k; [reflexivity|]. rewrite pow2_S, low_even by apply pow2_pos. congruence.
Qed.

Lemma low_add k u : 0 < u -> u < 2 ^ N.of_nat k -> low (2 ^ N.of_nat k + u) = low u.
Proof.
  revert u; induction k; intros u H1 H2; [simpl in H2; lia|].
  rewrite pow2_S in *. destruct (even_odd_cases u) as (h & [->| ->]).
  - replace (2 * 2 ^ N.of_nat k + 2 * h) with (2 * (2 ^ N.of_nat k + h)) by lia.
    rewrite !low_even by lia. rewrite IHk; auto; lia.
  - replace (2 * 2 ^ N.of_nat k + (2 * h + 1)) with (2 * (2 ^ N.of_nat k + h) + 1) by lia.
    rewrite !low_odd. reflexivity.
Qed.

(** [low u] is a power of two not above [u]. *)
Lemma low_is_pow2 u : 0 < u -> exists b, low u = 2 ^ N.of_nat b /\ low u <= u.
Proof.
  induction u as [u IH] using (well_founded_induction N.lt_wf_0). intro H.
  destruct (even_odd_cases u) as (h & [->| ->]).
  - destruct (IH h) as (b & E & Hle); try lia. exists (S b).
    rewrite low_even, pow2_S, E by lia. split; auto. lia.
  - exists O. rewrite low_odd. simpl. split; auto. lia.
Qed.

Definition wstep (l : luby) : luby := snd (luby_wide_advance l).
Fixpoint wstate (n : nat) : luby :=
  match n with O => luby_init | S m => wstep (wstate m) end.

Lemma wstep_eq u v : wstep (mkLuby u v) =
  if low u =? v then mkLuby (u + 1) 1 else mkLuby u (2 * v).
Proof.
  unfold wstep, luby_wide_advance. cbn [lu_u lu_v]. fold (low u).
  destruct (low u =? v); reflexivity.
Qed.

(** Reachable states: [v] is a power of two dividing the lowest set bit. *)
Definition Winv (l : luby) : Prop :=
  0 < lu_u l /\ exists a b, lu_v l = 2 ^ N.of_nat a /\ low (lu_u l) = 2 ^ N.of_nat b /\ (a <= b)%nat.

Lemma pow2_inj a b : 2 ^ N.of_nat a = 2 ^ N.of_nat b -> a = b.
Proof. intro H. apply N.pow_inj_r in H; lia. Qed.

Lemma Winv_step l : Winv l -> Winv (wstep l).
Proof.
  destruct l as [u v]. intros (Hu & a & b & Ha & Hb & Hab). cbn [lu_u lu_v] in *.
  rewrite wstep_eq. destruct (N.eqb_spec (low u) v).
  - split; cbn [lu_u lu_v]; [lia|]. destruct (low_is_pow2 (u+1)) as (c & E & _); [lia|].
    exists O, c. simpl. repeat split; auto. lia.
  - split; cbn [lu_u lu_v]; [lia|]. exists (S a), b. rewrite pow2_S, Ha. repeat split; auto.
    assert (a <> b) by congruence. lia.
Qed.

Lemma Winv_state n : Winv (wstate n).
Proof.
  induction n; simpl; [|apply Winv_step; auto].
  split; simpl; [lia|]. exists O, O. auto.
Qed.

Lemma pow_nat_S k : (2 ^ S k = 2 * 2 ^ k)%nat. Proof. simpl. lia. Qed.
Lemma pow_nat_pos k : (1 <= 2 ^ k)%nat.
Proof. induction k; simpl; lia. Qed.

(** Block structure. *)
Definition Block (k : nat) : Prop :=
  wstate (2 * 2 ^ k - 2) = mkLuby (2 ^ N.of_nat k) (2 ^ N.of_nat k) /\
  forall i, (i < 2 * 2 ^ k - 2)%nat ->
    lu_u (wstate i) <= 2 ^ N.of_nat k /\ lu_v (wstate i) <= 2 ^ N.of_nat k /\
    wstate i <> mkLuby (2 ^ N.of_nat k) (2 ^ N.of_nat k).

Lemma block_shift k : Block k -> forall i, (i <= 2 * 2 ^ k - 2)%nat ->
  wstate (2 * 2 ^ k - 1 + i) =
  mkLuby (2 ^ N.of_nat k + lu_u (wstate i)) (lu_v (wstate i)).
Proof.
  intros [HE HB]. pose proof (pow_nat_pos k) as Hp.
  induction i; intro Hi.
  - replace (2 * 2 ^ k - 1 + 0)%nat with (S (2 * 2 ^ k - 2)) by lia.
    cbn [wstate]. rewrite HE, wstep_eq, low_pow2, N.eqb_refl. reflexivity.
  - replace (2 * 2 ^ k - 1 + S i)%nat with (S (2 * 2 ^ k - 1 + i)) by lia.
    cbn [wstate]. rewrite IHi by lia.
    destruct (HB i ltac:(lia)) as (Hu & Hv & Hne).
    destruct (Winv_state i) as (Hu0 & _).
    destruct (wstate i) as [u v]. cbn [lu_u lu_v] in *. rewrite !wstep_eq.
    destruct (N.eq_dec u (2 ^ N.of_nat k)) as [->|Hu'].
    + assert (v <> 2 ^ N.of_nat k) by (intro; subst; apply Hne; reflexivity).
      replace (2 ^ N.of_nat k + 2 ^ N.of_nat k) with (2 ^ N.of_nat (S k)) by (rewrite pow2_S; lia).
      rewrite !low_pow2.
      destruct (N.eqb_spec (2 ^ N.of_nat (S k)) v); [rewrite pow2_S in *; lia|].
      destruct (N.eqb_spec (2 ^ N.of_nat k) v); [lia|]. cbn [lu_u lu_v]. f_equal.
      rewrite pow2_S. lia.
    + rewrite low_add by lia. destruct (low u =? v); cbn [lu_u lu_v]; f_equal; lia.
Qed.

Lemma block_all k : Block k.
Proof.
  induction k as [|k IH].
  - split; [reflexivity|]. intros i Hi. simpl in Hi. lia.
  - pose proof (block_shift k IH) as HS. destruct IH as [HE HB]. pose proof (pow_nat_pos k) as Hp.
    assert (EL : wstate (2 * 2 ^ k - 1 + (2 * 2 ^ k - 2)) =
       mkLuby (2 ^ N.of_nat k + 2 ^ N.of_nat k) (2 ^ N.of_nat k)).
    { rewrite HS by lia. rewrite HE. reflexivity. }
    pose proof (pow2_pos k) as Hp2.
    split.
    + rewrite pow_nat_S. replace (2 * (2 * 2 ^ k) - 2)%nat
        with (S (2 * 2 ^ k - 1 + (2 * 2 ^ k - 2))) by lia.
      cbn [wstate]. rewrite EL, wstep_eq.
      replace (2 ^ N.of_nat k + 2 ^ N.of_nat k) with (2 ^ N.of_nat (S k)) by (rewrite pow2_S; lia).
      rewrite low_pow2. destruct (N.eqb_spec (2 ^ N.of_nat (S k)) (2 ^ N.of_nat k)).
      * rewrite pow2_S in *. lia.
      * f_equal. rewrite pow2_S. lia.
    + intros i Hi. rewrite pow_nat_S in Hi. rewrite !pow2_S.
      destruct (Nat.lt_trichotomy i (2 * 2 ^ k - 2)) as [H|[H|H]].
      * destruct (HB i H) as (H1 & H2 & H3). repeat split; try lia.
        intro E. rewrite E in H1. cbn [lu_u] in H1. lia.
      * subst i. rewrite HE. cbn [lu_u lu_v]. repeat split; try lia. intro E. apply (f_equal lu_v) in E. cbn [lu_v] in E. lia.
      * replace i with (2 * 2 ^ k - 1 + (i - (2 * 2 ^ k - 1)))%nat by lia.
        set (j := (i - (2 * 2 ^ k - 1))%nat). rewrite HS by lia. cbn [lu_u lu_v].
        assert (Hj : (j <= 2 * 2 ^ k - 2)%nat) by lia.
        destruct (Nat.eq_dec j (2 * 2 ^ k - 2)) as [->|Hne].
        -- rewrite HE. cbn [lu_u lu_v]. repeat split; try lia. intro E. apply (f_equal lu_v) in E. cbn [lu_v] in E. lia.
        -- destruct (HB j ltac:(lia)) as (H1 & H2 & H3). repeat split; try lia.
           intro E. apply (f_equal lu_v) in E. cbn [lu_v] in E. lia.
Qed.

Lemma luby_wide_spec n : luby_spec (S n) (lu_v (wstate n)).
Proof.
  induction n as [n IH] using lt_wf_ind.
  (* find k with 2^k - 1 <= n+1 - ... *)
  assert (exists k, (2 ^ k - 1 <= n)%nat /\ (n <= 2 * 2 ^ k - 2)%nat) as (k & H1 & H2).
  { clear IH. exists (Nat.log2 (S n)). pose proof (Nat.log2_spec (S n) ltac:(lia)).
    rewrite pow_nat_S in H. lia. }
  pose proof (pow_nat_pos k) as Hp.
  destruct (Nat.eq_dec n (2 * 2 ^ k - 2)) as [E|Hne].
  - destruct (block_all k) as [HE _]. rewrite E at 2. rewrite HE. cbn [lu_v].
    replace (S n) with (2 ^ S k - 1)%nat by (rewrite pow_nat_S; lia).
    replace k with (S k - 1)%nat at 2 by lia. apply luby_peak. lia.
  - destruct k as [|k]; [simpl in *; lia|].
    apply (luby_rec (S (S k))).
    + simpl (S (S k) - 1)%nat. lia.
    + rewrite (pow_nat_S (S k)). lia.
    + replace (S (S k) - 1)%nat with (S k) by lia. rewrite pow_nat_S in *.
      replace (S n - 2 * 2 ^ k + 1)%nat with (S (n - (2 * 2 ^ k - 1)))%nat by lia.
      set (j := (n - (2 * 2 ^ k - 1))%nat).
      pose proof (block_shift k (block_all k) j ltac:(lia)) as HS.
      replace (2 * 2 ^ k - 1 + j)%nat with n in HS by lia. rewrite HS. cbn [lu_v].
      apply IH. pose proof (pow_nat_pos k). lia.
Qed.

(** ** 64-bit version *)

Lemma land_neg_low u : 0 < u -> u < U64 -> N.land u (wrapping_neg u) = low u.
Proof.
  intros H1 H2. unfold wrapping_neg, low. rewrite (N.mod_small u) by auto.
  rewrite (N.mod_small (U64 - u)) by lia.
  rewrite (N.ldiff_land_low u (u - 1) 64).
  2:{ apply N.log2_lt_pow2; [lia|exact H2]. }
  f_equal. destruct (N.eq_dec u 1) as [->|Hn]; [reflexivity|].
  rewrite N.lnot_sub_low.
  - change (N.ones 64) with (U64 - 1). lia.
  - apply N.log2_lt_pow2; [lia|]. change (2 ^ 64) with U64. lia.
Qed.

Lemma luby_advance_wide l : Winv l -> lu_u l + 1 < U64 ->
  luby_advance l = luby_wide_advance l.
Proof.
  destruct l as [u v]. intros (Hu & a & b & Ha & Hb & Hab) Hlt. cbn [lu_u lu_v] in *.
  unfold luby_advance, luby_wide_advance. cbn [lu_u lu_v].
  rewrite land_neg_low by lia. fold (low u).
  destruct (N.eqb_spec (low u) v); f_equal; f_equal.
  - apply N.mod_small. exact Hlt.
  - apply N.mod_small. rewrite N.shiftl_mul_pow2. change (2 ^ 1) with 2.
    destruct (low_is_pow2 u Hu) as (_ & _ & Hle).
    assert (Hab' : (S a <= b)%nat) by (assert (a <> b) by congruence; lia).
    assert (2 ^ N.of_nat (S a) <= 2 ^ N.of_nat b) by (apply N.pow_le_mono_r; lia).
    rewrite pow2_S in H. lia.
Qed.

Lemma wstate_u_bound n : lu_u (wstate n) <= N.of_nat n + 1.
Proof.
  induction n; [simpl; lia|]. cbn [wstate]. destruct (wstate n) as [u v]. rewrite wstep_eq.
  cbn [lu_u] in *. destruct (low u =? v); cbn [lu_u]; lia.
Qed.

Lemma luby_iter_S n l : luby_iter (S n) l = snd (luby_advance (luby_iter n l)).
Proof. revert l; induction n; intro l; [reflexivity|]. simpl in *. rewrite IHn. reflexivity. Qed.

Lemma luby_iter_wide n : N.of_nat n + 1 < U64 -> luby_iter n luby_init = wstate n.
Proof.
  induction n; intro H; [reflexivity|]. rewrite luby_iter_S, IHn by lia.
  rewrite luby_advance_wide; [reflexivity|apply Winv_state|].
  pose proof (wstate_u_bound n). lia.
Qed.

Lemma luby_term_wide n : N.of_nat n + 1 < U64 -> luby_term n = lu_v (wstate n).
Proof.
  intro H. unfold luby_term. rewrite luby_iter_wide by auto.
  unfold luby_advance. destruct (_ =? _); reflexivity.
Qed.

(** The sequence is unbounded. *)
Lemma wstate_unbounded m : exists n, m <= lu_v (wstate n).
Proof.
  destruct (block_all (N.to_nat m)) as [HE _].
  exists (2 * 2 ^ N.to_nat m - 2)%nat. rewrite HE. cbn [lu_v]. rewrite N2Nat.id.
  apply N.lt_le_incl, N.pow_gt_lin_r. lia.
Qed.

Lemma luby_iter_wide_iter n : N.of_nat n + 1 < 2 ^ 64 ->
  luby_iter n luby_init = Nat.iter n (fun l => snd (luby_wide_advance l)) luby_init.
Proof.
  intro H. rewrite luby_iter_wide by exact H. clear H. induction n; [reflexivity|].
  cbn [wstate]. rewrite IHn. reflexivity.
Qed.

Lemma luby_spec_fun i s t : luby_spec i s -> luby_spec i t -> s = t.
Proof.
  intro H. revert t. induction H as [k Hk|k i s Hlo Hhi Hs IH]; intros t Ht.
  - remember (2 ^ k - 1)%nat as i eqn:Ei. destruct Ht as [k' Hk'|k' i t Hlo' Hhi' Ht'].
    + assert (2 ^ k = 2 ^ k')%nat by (pose proof (Nat.pow_nonzero 2 k); pose proof (Nat.pow_nonzero 2 k'); lia).
      apply Nat.pow_inj_r in H; [congruence|lia].
    + exfalso. subst i. assert (k' - 1 < k)%nat.
      { apply (Nat.pow_lt_mono_r_iff 2); [lia|]. pose proof (Nat.pow_nonzero 2 k). lia. }
      assert (k < k')%nat.
      { apply (Nat.pow_lt_mono_r_iff 2); [lia|]. lia. }
      lia.
  - destruct Ht as [k' Hk'|k' i t Hlo' Hhi' Ht'].
    + exfalso. assert (k - 1 < k')%nat.
      { apply (Nat.pow_lt_mono_r_iff 2); [lia|]. pose proof (Nat.pow_nonzero 2 k'). lia. }
      assert (k' < k)%nat.
      { apply (Nat.pow_lt_mono_r_iff 2); [lia|]. lia. }
      lia.
    + assert (k = k'); [|subst; auto].
      assert (k - 1 < k')%nat by (apply (Nat.pow_lt_mono_r_iff 2); lia).
      assert (k' - 1 < k)%nat by (apply (Nat.pow_lt_mono_r_iff 2); lia).
      assert (1 <= k)%nat by (destruct k; simpl in *; lia).
      assert (1 <= k')%nat by (destruct k'; simpl in *; lia). lia.
Qed.
