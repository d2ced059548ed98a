(** C38, C39: literals. *)
From Coq Require Import NArith ZArith List Bool Arith Lia.
From Verif Require Import Model_Base Model_Lit Spec Spec_Format Proof_Base Proof_PA Proof_Lit.
Local Open Scope N_scope.

(** C38: [from_dimacs] accepts exactly the non-zero numbers up to 2^30 in
    absolute value, and [dimacs] inverts it. *)
Theorem lit_from_dimacs_spec (z : Z) :
  ((0 < Z.abs z <= 1073741824)%Z ->
     exists l, lit_from_dimacs z = Ret l /\ valid l /\ lit_dimacs l = z) /\
  (~ (0 < Z.abs z <= 1073741824)%Z -> lit_from_dimacs z = Panic PAssert).
Proof.
  split; [|exact (from_dimacs_bad z)]. intro H. eexists. split; [exact (from_dimacs_ok z H)|].
  split; eapply dimacs_of_from, from_dimacs_ok, H.
Qed.
Example lit_from_dimacs_ex : lit_from_dimacs (-7) = Ret 12 /\ lit_dimacs 12 = (-7)%Z
  /\ lit_from_dimacs 0 = Panic PAssert /\ lit_from_dimacs 1073741825 = Panic PAssert.
Proof. repeat split; reflexivity. Qed.

Theorem lit_dimacs_roundtrip (l : N) : valid l ->
  lit_from_dimacs (lit_dimacs l) = Ret l /\ lit_dimacs l = dimacs l.
Proof. intro H. split; [exact (dimacs_roundtrip l H)|]. unfold lit_dimacs, dimacs, var_dimacs.
  rewrite lit_var_div, lit_pos_odd. destruct (N.odd l); lia. Qed.
Example lit_dimacs_roundtrip_ex : valid 2147483647 /\ lit_dimacs 2147483647 = 1073741824%Z.
Proof. split; reflexivity. Qed.

(** [from_code] accepts exactly the codes of valid literals, [code] inverts it. *)
Theorem lit_from_code_spec (c : N) :
  (valid c -> exists l, lit_from_code c = Ret l /\ lit_code l = c) /\
  (~ valid c -> lit_from_code c = Panic PAssert).
Proof.
  unfold valid, lit_from_code. change MAX_CODE with 2147483647. split; intro H.
  - exists c. destruct (N.leb_spec c 2147483647); [split; reflexivity|lia].
  - destruct (N.leb_spec c 2147483647); [lia|reflexivity].
Qed.
Example lit_from_code_ex : lit_from_code 5 = Ret 5 /\ lit_from_code 2147483648 = Panic PAssert.
Proof. split; reflexivity. Qed.

(** [from_index] accepts exactly the indices below 2^30; index and polarity
    read back; every valid literal is obtained that way from its own index and
    polarity. *)
Theorem lit_from_index_spec (v : N) (b : bool) :
  (v < 1073741824 ->
     exists l, lit_from_index v b = Ret l /\ valid l /\
       lit_var l = v /\ lit_is_positive l = b /\ lit_is_negative l = negb b) /\
  (1073741824 <= v -> lit_from_index v b = Panic PAssert).
Proof.
  split; intro H.
  - exists (mklit v b). split; [exact (from_index_ok v b H)|].
    split; [apply mklit_valid; exact H|]. rewrite lit_negative_pos, lit_var_mk, lit_pos_mk. auto.
  - unfold lit_from_index. rewrite var_from_index_bad by exact H. reflexivity.
Qed.
Example lit_from_index_ex : lit_from_index 6 false = Ret 12.
Proof. reflexivity. Qed.

Theorem lit_index_roundtrip (l : N) : valid l ->
  lit_from_index (lit_var l) (lit_is_positive l) = Ret l.
Proof.
  intro H. rewrite (lit_mklit l) in H |- *. rewrite lit_var_mk, lit_pos_mk.
  apply from_index_ok. eapply mklit_valid, H.
Qed.
Example lit_index_roundtrip_ex : valid 13 /\ lit_var 13 = 6 /\ lit_is_positive 13 = true.
Proof. repeat split; reflexivity. Qed.

(** Negation flips exactly the polarity. *)
Theorem lit_not_spec (l : N) : valid l ->
  valid (lnot l) /\ lit_var (lnot l) = lit_var l /\
  lit_is_positive (lnot l) = negb (lit_is_positive l) /\
  lnot (lnot l) = l /\ lnot l <> l /\ lit_dimacs (lnot l) = (- lit_dimacs l)%Z /\
  (forall b, lit_xor_bool l b = if b then lnot l else l).
Proof.
  intro H. split; [exact (lnot_valid l H)|]. rewrite dimacs_lnot, !lnot_neg.
  rewrite !lit_var_div, !lit_pos_odd, neg_var, neg_odd, neg_neg.
  repeat split; auto using neg_neq. intro b. apply lit_xor_bool_spec.
Qed.
Example lit_not_ex : valid 12 /\ lnot 12 = 13 /\ lnot 13 = 12.
Proof. repeat split; reflexivity. Qed.

(** The documented constants are the exact limits: a number, code or index is
    accepted if and only if it does not exceed the constant; there are
    [MAX_VAR_COUNT] variables.  They are the numbers 2^30-1, 2^30, 2^30 and
    2^31-1. *)
Theorem lit_limits :
  (forall z, (exists l, lit_from_dimacs z = Ret l) <-> (0 < Z.abs z <= Z.of_N MAX_DIMACS)%Z) /\
  (forall z, (exists v, var_from_dimacs z = Ret v) <-> (0 < z <= Z.of_N MAX_DIMACS)%Z) /\
  (forall c, (exists l, lit_from_code c = Ret l) <-> c <= MAX_CODE) /\
  (forall v b, (exists l, lit_from_index v b = Ret l) <-> v <= MAX_INDEX) /\
  (forall v, (exists x, var_from_index v = Ret x) <-> v < MAX_VAR_COUNT) /\
  MAX_INDEX + 1 = 2 ^ 30 /\ MAX_VAR_COUNT = 2 ^ 30 /\ MAX_DIMACS = 2 ^ 30 /\ MAX_CODE + 1 = 2 ^ 31.
Proof.
  change MAX_DIMACS with 1073741824. change MAX_CODE with 2147483647.
  change MAX_INDEX with 1073741823. change MAX_VAR_COUNT with 1073741824.
  assert (Iv : forall v, (exists x, var_from_index v = Ret x) <-> v < 1073741824).
  { intro v. destruct (N.lt_ge_cases v 1073741824) as [H|H].
    - rewrite var_from_index_ok by exact H. split; eauto.
    - rewrite var_from_index_bad by exact H. split; [intros [x E]; discriminate|lia]. }
  split; [|split; [|split; [|split; [|split; [|repeat split; reflexivity]]]]].
  - intro z. destruct (lit_from_dimacs_spec z) as [A B]. split.
    + intros [l E]. destruct (Z.lt_ge_cases 0 (Z.abs z)); [destruct (Z.le_gt_cases (Z.abs z) 1073741824); [lia|]|].
      all: rewrite B in E by lia; discriminate.
    + intro H. destruct (A H) as [l [E _]]. eauto.
  - intro z. unfold var_from_dimacs. destruct (Z.ltb_spec 0 z) as [H|H].
    + rewrite (Iv (Z.to_N (z - 1))). lia.
    + split; [intros [x E]; discriminate|lia].
  - intro c. destruct (lit_from_code_spec c) as [A B]. unfold valid in A, B. split.
    + intros [l E]. destruct (N.le_gt_cases c 2147483647); [auto|]. rewrite B in E by lia. discriminate.
    + intro H. destruct (A ltac:(lia)) as [l [E _]]. eauto.
  - intros v b. destruct (lit_from_index_spec v b) as [A B]. split.
    + intros [l E]. destruct (N.lt_ge_cases v 1073741824); [lia|]. rewrite B in E by lia. discriminate.
    + intro H. destruct (A ltac:(lia)) as [l [E _]]. eauto.
  - exact Iv.
Qed.
Example lit_limits_ex : lit_from_dimacs (- Z.of_N MAX_DIMACS) = Ret 2147483646 /\
  lit_from_dimacs (- Z.of_N MAX_DIMACS - 1) = Panic PAssert.
Proof. split; reflexivity. Qed.

(** The 1-based number of a variable and back. *)
Theorem var_dimacs_roundtrip (v : N) : v <= MAX_INDEX ->
  var_dimacs v = (Z.of_N v + 1)%Z /\ var_from_dimacs (var_dimacs v) = Ret v /\
  lit_dimacs (lit_from_var v true) = var_dimacs v /\
  lit_dimacs (lit_from_var v false) = (- var_dimacs v)%Z.
Proof.
  change MAX_INDEX with 1073741823. intro H. rewrite !lit_from_var_mk, !dimacs_mk.
  unfold var_dimacs, var_from_dimacs. destruct (Z.ltb_spec 0 (Z.of_N (v + 1))); [|lia].
  replace (Z.to_N (Z.of_N (v + 1) - 1)) with v by lia.
  rewrite var_from_index_ok by lia. repeat split; lia.
Qed.
Example var_dimacs_roundtrip_ex : (6 <= MAX_INDEX) /\ var_dimacs 6 = 7%Z /\ var_from_dimacs 7 = Ret 6.
Proof. repeat split; discriminate. Qed.

(** The constructors without bounds checks agree with the checked ones wherever
    those succeed, in debug and release builds alike; in a debug build they
    panic where the checked ones do; in a release build they never panic, and
    the number given only counts modulo 2^32. *)
Theorem lit_unchecked (dbg : bool) :
  (forall i v, var_from_index i = Ret v -> var_from_index_unchecked dbg i = Ret v) /\
  (forall i b l, lit_from_index i b = Ret l -> lit_from_index_unchecked dbg i b = Ret l) /\
  (forall c l, lit_from_code c = Ret l -> lit_from_code_unchecked dbg c = Ret l) /\
  (forall i b, lit_from_index i b = Panic PAssert -> lit_from_index_unchecked true i b = Panic PDebug) /\
  (forall c, lit_from_code c = Panic PAssert -> lit_from_code_unchecked true c = Panic PDebug) /\
  (forall i, var_from_index i = Panic PAssert -> var_from_index_unchecked true i = Panic PDebug) /\
  (forall i, var_from_index_unchecked false i = Ret (i mod 2 ^ 32)) /\
  (forall i b, lit_from_index_unchecked false i b = Ret ((2 * i + if b then 1 else 0) mod 2 ^ 32)) /\
  (forall c, lit_from_code_unchecked false c = Ret (c mod 2 ^ 32)).
Proof.
  assert (L : forall x, x < 4294967296 -> N.land x LITIDX_MAX = x).
  { intros x H. change LITIDX_MAX with (N.ones 32). rewrite N.land_ones. apply N.mod_small. exact H. }
  assert (V : forall i v, var_from_index i = Ret v -> i < 1073741824 /\ v = i).
  { intros i v. destruct (N.lt_ge_cases i 1073741824) as [H|H].
    - rewrite var_from_index_ok by exact H. intro E. injection E as <-. auto.
    - rewrite var_from_index_bad by exact H. discriminate. }
  assert (U : forall d i, i < 1073741824 -> var_from_index_unchecked d i = Ret i).
  { intros d i H. unfold var_from_index_unchecked. rewrite L by lia. change MAX_INDEX with 1073741823.
    destruct (N.leb_spec i 1073741823); [|lia]. destruct d; reflexivity. }
  assert (M : forall x, N.land x LITIDX_MAX = x mod 2 ^ 32).
  { intro x. change LITIDX_MAX with (N.ones 32). apply N.land_ones. }
  split; [|split; [|split; [|split; [|split; [|split; [|split; [|split]]]]]]].
  - intros i v E. destruct (V i v E) as [H ->]. apply U. exact H.
  - intros i b l E. unfold lit_from_index in E. unfold lit_from_index_unchecked.
    destruct (var_from_index i) as [v| |] eqn:Ev; cbn in E; try discriminate.
    destruct (V i v Ev) as [H ->]. rewrite (U dbg i H). injection E as <-.
    cbn. rewrite lit_from_var_mk. rewrite L; [reflexivity|]. unfold mklit. destruct b; lia.
  - intros c l. unfold lit_from_code, lit_from_code_unchecked. change MAX_CODE with 2147483647.
    destruct (N.leb_spec c 2147483647); [|discriminate]. rewrite L by lia.
    intro E. injection E as <-. destruct dbg; reflexivity.
  - intros i b. unfold lit_from_index, lit_from_index_unchecked, var_from_index, var_from_index_unchecked.
    destruct (i <=? MAX_INDEX); cbn; [discriminate|reflexivity].
  - intros c. unfold lit_from_code, lit_from_code_unchecked.
    destruct (c <=? MAX_CODE); cbn; [discriminate|reflexivity].
  - intro i. unfold var_from_index, var_from_index_unchecked.
    destruct (i <=? MAX_INDEX); cbn; [discriminate|reflexivity].
  - intro i. unfold var_from_index_unchecked, dassert. cbn [andb]. rewrite M. reflexivity.
  - intros i b. unfold lit_from_index_unchecked, var_from_index_unchecked, dassert. cbn [andb bind].
    rewrite lit_from_var_mk, !M. unfold mklit. change (2 ^ 32) with 4294967296. f_equal.
    pose proof (N.div_mod i 4294967296 ltac:(lia)) as D.
    rewrite D at 2. rewrite N.mul_add_distr_l, N.mul_assoc, (N.mul_comm 2 4294967296), <- N.mul_assoc, <- N.add_assoc.
    rewrite (N.add_comm (4294967296 * _)), (N.mul_comm 4294967296), N.mod_add by lia. destruct b; reflexivity.
  - intro c. unfold lit_from_code_unchecked, dassert. cbn [andb]. rewrite M. reflexivity.
Qed.
Example lit_unchecked_ex : lit_from_index_unchecked false 6 true = Ret 13 /\
  lit_from_index_unchecked false 4294967302 true = Ret 13 /\
  lit_from_index_unchecked true 4294967302 true = Panic PDebug.
Proof. repeat split; reflexivity. Qed.

(** Variables are ordered as their numbers, literals first by variable, the
    negative one before the positive one. *)
Theorem lit_order (a b : N) :
  var_cmp a b = Z.compare (var_dimacs a) (var_dimacs b) /\
  lit_cmp a b =
    match var_cmp (lit_var a) (lit_var b) with
    | Eq => match lit_is_positive a, lit_is_positive b with
            | false, true => Lt | true, false => Gt | _, _ => Eq end
    | c => c end.
Proof.
  unfold var_cmp, lit_cmp, var_dimacs. split.
  - destruct (N.compare_spec a b), (Z.compare_spec (Z.of_N (a + 1)) (Z.of_N (b + 1))); auto; lia.
  - rewrite !lit_pos_odd, !lit_var_div.
    pose proof (N.div_mod a 2 ltac:(lia)) as Ea. pose proof (N.div_mod b 2 ltac:(lia)) as Eb.
    pose proof (N.bit0_mod a) as Oa. pose proof (N.bit0_mod b) as Ob. rewrite N.bit0_odd in Oa, Ob.
    destruct (N.odd a), (N.odd b); cbn [N.b2n] in Oa, Ob; rewrite <- Oa in Ea; rewrite <- Ob in Eb;
      destruct (N.compare_spec (a / 2) (b / 2)), (N.compare_spec a b); auto; try lia.
Qed.
Example lit_order_ex : lit_cmp 13 12 = Gt /\ lit_cmp 13 14 = Lt /\ var_cmp 6 7 = Lt.
Proof. repeat split; reflexivity. Qed.

(** C39: in both build modes, for all codes. *)
Theorem select_other_spec (dbg : bool) (l a b : N) :
  (l = a -> select_other dbg l a b = Ret b) /\
  (l = b -> select_other dbg l a b = Ret a).
Proof.
  split; intros ->; [exact (select_other_first dbg a b)|exact (select_other_second dbg a b)].
Qed.
Example select_other_ex : select_other true 7 4 7 = Ret 4 /\ select_other true 5 4 7 = Panic PDebug.
Proof. split; reflexivity. Qed.

Print Assumptions lit_from_dimacs_spec.
Print Assumptions lit_dimacs_roundtrip.
Print Assumptions lit_from_code_spec.
Print Assumptions lit_from_index_spec.
Print Assumptions lit_index_roundtrip.
Print Assumptions lit_not_spec.
Print Assumptions lit_limits.
Print Assumptions var_dimacs_roundtrip.
Print Assumptions lit_unchecked.
Print Assumptions lit_order.
Print Assumptions select_other_spec.
