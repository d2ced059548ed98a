(** Bit field lemmas for clause headers and reduction scores. *)
From Coq Require Import NArith List Bool Arith Lia ZifyN ZifyNat ZifyBool.
From Verif Require Import Model_Base Model_Header Proof_Base.
Local Open Scope N_scope.

Lemma testbit_high a n i : a < 2 ^ n -> n <= i -> N.testbit a i = false.
Proof.
  intros H1 H2. destruct (N.eq_dec a 0) as [->|Ha]; [apply N.bits_0|].
  apply N.bits_above_log2. apply N.log2_lt_pow2; [lia|].
  eapply N.lt_le_trans; [eassumption|]. apply N.pow_le_mono_r; lia.
Qed.

Lemma lt_pow2_bits a n : (forall i, n <= i -> N.testbit a i = false) -> a < 2 ^ n.
Proof.
  intro H. destruct (N.eq_dec a 0) as [->|Ha]; [apply N.neq_0_lt_0, N.pow_nonzero; lia|].
  apply N.log2_lt_pow2; [lia|].
  destruct (N.lt_ge_cases (N.log2 a) n); auto.
  pose proof (N.bit_log2 a Ha) as E.
  rewrite H in E; [discriminate|assumption].
Qed.

Lemma ones_shift W : N.shiftl 1 W - 1 = N.ones W.
Proof. rewrite N.ones_equiv, N.shiftl_1_l. lia. Qed.

Lemma ones_bit n i : N.testbit (N.ones n) i = (i <? n).
Proof.
  destruct (N.ltb_spec i n); [apply N.ones_spec_low|apply N.ones_spec_high]; auto.
Qed.

Lemma shiftl_bit a n i : N.testbit (N.shiftl a n) i = (n <=? i) && N.testbit a (i - n).
Proof.
  destruct (N.leb_spec n i); simpl.
  - apply N.shiftl_spec_high'; auto.
  - apply N.shiftl_spec_low; auto.
Qed.

Lemma not32_bit x i : N.testbit (not32 x) i = xorb (N.testbit x i) (i <? 32).
Proof. unfold not32. rewrite N.lxor_spec. change 4294967295 with (N.ones 32). rewrite ones_bit. auto. Qed.

Lemma hw_bit_spec B d : hw_bit B d = N.testbit d B.
Proof.
  unfold hw_bit. destruct (N.testbit d B) eqn:E.
  - destruct (N.eqb_spec (N.land d (N.shiftl 1 B)) 0) as [H|]; auto.
    exfalso. assert (H1 : N.testbit (N.land d (N.shiftl 1 B)) B = false) by (rewrite H; apply N.bits_0).
    rewrite N.land_spec, E, shiftl_bit, N.sub_diag in H1.
    destruct (N.leb_spec B B); [|lia]. discriminate.
  - destruct (N.eqb_spec (N.land d (N.shiftl 1 B)) 0) as [|H]; auto.
    exfalso. apply H. apply N.bits_inj. intro i. rewrite N.land_spec, N.bits_0, shiftl_bit.
    destruct (N.eq_dec i B) as [->|Hi]; [rewrite E; reflexivity|].
    destruct (N.leb_spec B i); cbn [andb]; [|apply andb_false_r].
    rewrite (testbit_high 1 1) by lia. apply andb_false_r.
Qed.

Lemma hw_set_bit_testbit B d v i : d < 2 ^ 32 -> B < 32 ->
  N.testbit (hw_set_bit B d v) i = if i =? B then v else N.testbit d i.
Proof.
  intros Hd HB. unfold hw_set_bit. rewrite N.lor_spec, N.land_spec, not32_bit, !shiftl_bit.
  destruct (N.eqb_spec i B) as [->|Hi].
  - rewrite N.sub_diag. destruct (N.leb_spec B B); [|lia].
    destruct (N.ltb_spec B 32); [|lia]. destruct v, (N.testbit d B); reflexivity.
  - assert (E : forall a, a < 2 -> (B <=? i) && N.testbit a (i - B) = false).
    { intros a Ha. destruct (N.leb_spec B i); auto. apply (testbit_high a 1); [exact Ha|lia]. }
    rewrite !E by (destruct v; lia).
    destruct (N.ltb_spec i 32); simpl.
    + destruct (N.testbit d i); reflexivity.
    + rewrite (testbit_high d 32) by (auto; lia). reflexivity.
Qed.

Definition sat (W v : N) : N := if N.ones W <? v then N.ones W else v.

Lemma hw_set_field_testbit S W d v i : d < 2 ^ 32 -> S + W <= 32 ->
  N.testbit (hw_set_field S W d v) i =
  if (S <=? i) && (i <? S + W) then N.testbit (sat W v) (i - S) else N.testbit d i.
Proof.
  intros Hd HW. unfold hw_set_field. rewrite !ones_shift. fold (sat W v).
  rewrite N.lor_spec, N.land_spec, not32_bit, !shiftl_bit, ones_bit.
  assert (Hs : sat W v <= N.ones W) by (unfold sat; destruct (N.ltb_spec (N.ones W) v); lia).
  assert (Hs2 : sat W v < 2 ^ W).
  { rewrite N.ones_equiv in Hs. pose proof (N.pow_nonzero 2 W ltac:(lia)). lia. }
  destruct (N.leb_spec S i); simpl.
  - destruct (N.ltb_spec i (S + W)).
    + destruct (N.ltb_spec (i - S) W); [|lia]. destruct (N.ltb_spec i 32); [|lia].
      simpl. rewrite andb_false_r. reflexivity.
    + destruct (N.ltb_spec (i - S) W); [lia|].
      rewrite (testbit_high (sat W v) W) by (auto; lia). rewrite orb_false_r.
      simpl. destruct (N.ltb_spec i 32); [apply andb_true_r|].
      rewrite (testbit_high d 32) by auto. reflexivity.
  - rewrite orb_false_r. destruct (N.ltb_spec i 32); [apply andb_true_r|].
    rewrite (testbit_high d 32) by auto. reflexivity.
Qed.

Lemma hw_field_testbit S W d i :
  N.testbit (hw_field S W d) i = (i <? W) && N.testbit d (i + S).
Proof.
  unfold hw_field. rewrite ones_shift, N.land_spec, ones_bit, N.shiftr_spec by lia.
  apply andb_comm.
Qed.

Lemma hw_field_ext S W d d' :
  (forall i, i < W -> N.testbit d (i + S) = N.testbit d' (i + S)) ->
  hw_field S W d = hw_field S W d'.
Proof.
  intro H. apply N.bits_inj. intro i. rewrite !hw_field_testbit.
  destruct (N.ltb_spec i W); auto. rewrite H; auto.
Qed.

Lemma hw_field_set_same S W d v : d < 2 ^ 32 -> S + W <= 32 ->
  hw_field S W (hw_set_field S W d v) = sat W v.
Proof.
  intros Hd HW. apply N.bits_inj. intro i.
  rewrite hw_field_testbit, hw_set_field_testbit by auto.
  assert (Hs : sat W v <= N.ones W) by (unfold sat; destruct (N.ltb_spec (N.ones W) v); lia).
  assert (Hs2 : sat W v < 2 ^ W).
  { rewrite N.ones_equiv in Hs. pose proof (N.pow_nonzero 2 W ltac:(lia)). lia. }
  destruct (N.ltb_spec i W); simpl.
  - destruct (N.leb_spec S (i + S)); [|lia]. destruct (N.ltb_spec (i + S) (S + W)); [|lia].
    simpl. f_equal. lia.
  - symmetry. apply (testbit_high _ W); auto.
Qed.

Lemma hw_field_lt S W d : hw_field S W d < 2 ^ W.
Proof.
  apply lt_pow2_bits. intros i Hi. rewrite hw_field_testbit. destruct (N.ltb_spec i W); [lia|auto].
Qed.

Lemma hw_set_field_lt S W d v : d < 2 ^ 31 -> S + W <= 31 -> hw_set_field S W d v < 2 ^ 31.
Proof.
  intros Hd HW. apply lt_pow2_bits. intros i Hi.
  rewrite hw_set_field_testbit by (try lia; change (2^32) with (2*2^31); lia).
  destruct (N.leb_spec S i); simpl.
  - destruct (N.ltb_spec i (S + W)); [lia|]. apply (testbit_high _ 31); auto.
  - apply (testbit_high _ 31); auto.
Qed.

Lemma hw_set_bit_lt B d v : d < 2 ^ 31 -> B < 31 -> hw_set_bit B d v < 2 ^ 31.
Proof.
  intros Hd HB. apply lt_pow2_bits. intros i Hi.
  rewrite hw_set_bit_testbit by (try lia; change (2^32) with (2*2^31); lia).
  destruct (N.eqb_spec i B); [lia|]. apply (testbit_high _ 31); auto.
Qed.

(** A header word pair without marker bit. *)
Definition lh_ok (h : long_header) : Prop := lh_w0 h < 2 ^ 31 /\ lh_w1 h < 2 ^ 31.

Ltac pow := change (2 ^ 31) with 2147483648 in *; change (2 ^ 32) with 4294967296 in *.

Lemma lh_ok_new_input : lh_ok lh_new_input.
Proof. split; vm_compute; reflexivity. Qed.
Lemma lh_ok_new_learned : lh_ok lh_new_learned.
Proof. split; vm_compute; reflexivity. Qed.

Lemma lh_ok_set_redundant h b : lh_ok h -> lh_ok (lh_set_redundant h b).
Proof. intros [H0 H1]. split; simpl; auto. apply hw_set_bit_lt; auto. vm_compute; auto. Qed.
Lemma lh_ok_set_protected h b : lh_ok h -> lh_ok (lh_set_protected h b).
Proof. intros [H0 H1]. split; simpl; auto. apply hw_set_bit_lt; auto. vm_compute; auto. Qed.
Lemma lh_ok_set_glue h v : lh_ok h -> lh_ok (lh_set_glue h v).
Proof. intros [H0 H1]. split; simpl; auto. apply hw_set_field_lt; auto. vm_compute; discriminate. Qed.
Lemma lh_ok_set_used h v : lh_ok h -> lh_ok (lh_set_used h v).
Proof. intros [H0 H1]. split; simpl; auto. apply hw_set_field_lt; auto. vm_compute; discriminate. Qed.
Lemma hw_new_lt d : hw_new d < 2 ^ 31.
Proof.
  unfold hw_new. change HEADER_MASK with (N.ones 31). rewrite N.land_ones.
  apply N.mod_lt. discriminate.
Qed.
Lemma lh_ok_set_search_pos h v : lh_ok h -> lh_ok (lh_set_search_pos h v).
Proof. intros [H0 H1]. split; simpl; auto. apply hw_new_lt. Qed.

Lemma to_u32_small v : v < 4294967296 -> to_u32 v = v.
Proof. intro. apply N.mod_small; auto. Qed.

Lemma lh_ok32 h : lh_ok h -> lh_w0 h < 2 ^ 32.
Proof. intros [H _]. pow. lia. Qed.

Lemma lh_search_pos_set h v : v < 2147483648 -> lh_search_pos (lh_set_search_pos h v) = v.
Proof.
  intro H. unfold lh_search_pos, lh_set_search_pos. simpl. rewrite to_u32_small by lia.
  unfold hw_new. change HEADER_MASK with (N.ones 31). rewrite N.land_ones.
  apply N.mod_small. pow. lia.
Qed.

(** Reading a field after writing another one. *)
Ltac field_other :=
  intros; unfold lh_redundant, lh_protected, lh_glue, lh_used, lh_search_pos,
    lh_set_redundant, lh_set_protected, lh_set_glue, lh_set_used, lh_set_search_pos in *;
  simpl; rewrite ?hw_bit_spec;
  try (apply hw_field_ext; intros i Hi);
  rewrite ?hw_set_bit_testbit, ?hw_set_field_testbit
    by (try apply lh_ok32; auto; vm_compute; auto; discriminate);
  change GLUE_START with 2 in *; change GLUE_WIDTH with 6 in *; change USED_START with 8 in *;
  change USED_WIDTH with 2 in *; change PROTECTED_BIT with 1 in *; change REDUNDANT_BIT with 0 in *;
  repeat match goal with
         | |- context [ (?a =? ?b) ] => destruct (N.eqb_spec a b); try lia
         | |- context [ (?a <=? ?b) ] => destruct (N.leb_spec a b); try lia
         | |- context [ (?a <? ?b) ] => destruct (N.ltb_spec a b); try lia
         end; simpl; auto.

Lemma redundant_set_redundant h b : lh_ok h -> lh_redundant (lh_set_redundant h b) = b.
Proof. field_other. Qed.
Lemma redundant_set_protected h b : lh_ok h -> lh_redundant (lh_set_protected h b) = lh_redundant h.
Proof. field_other. Qed.
Lemma redundant_set_glue h v : lh_ok h -> lh_redundant (lh_set_glue h v) = lh_redundant h.
Proof. field_other. Qed.
Lemma redundant_set_used h v : lh_ok h -> lh_redundant (lh_set_used h v) = lh_redundant h.
Proof. field_other. Qed.
Lemma redundant_set_search_pos h v : lh_redundant (lh_set_search_pos h v) = lh_redundant h.
Proof. reflexivity. Qed.
Lemma protected_set_redundant h b : lh_ok h -> lh_protected (lh_set_redundant h b) = lh_protected h.
Proof. field_other. Qed.
Lemma protected_set_protected h b : lh_ok h -> lh_protected (lh_set_protected h b) = b.
Proof. field_other. Qed.
Lemma protected_set_glue h v : lh_ok h -> lh_protected (lh_set_glue h v) = lh_protected h.
Proof. field_other. Qed.
Lemma protected_set_used h v : lh_ok h -> lh_protected (lh_set_used h v) = lh_protected h.
Proof. field_other. Qed.
Lemma protected_set_search_pos h v : lh_protected (lh_set_search_pos h v) = lh_protected h.
Proof. reflexivity. Qed.
Lemma glue_set_redundant h b : lh_ok h -> lh_glue (lh_set_redundant h b) = lh_glue h.
Proof. field_other. Qed.
Lemma glue_set_protected h b : lh_ok h -> lh_glue (lh_set_protected h b) = lh_glue h.
Proof. field_other. Qed.
Lemma glue_set_used h v : lh_ok h -> lh_glue (lh_set_used h v) = lh_glue h.
Proof. field_other. Qed.
Lemma glue_set_search_pos h v : lh_glue (lh_set_search_pos h v) = lh_glue h.
Proof. reflexivity. Qed.
Lemma used_set_redundant h b : lh_ok h -> lh_used (lh_set_redundant h b) = lh_used h.
Proof. field_other. Qed.
Lemma used_set_protected h b : lh_ok h -> lh_used (lh_set_protected h b) = lh_used h.
Proof. field_other. Qed.
Lemma used_set_glue h v : lh_ok h -> lh_used (lh_set_glue h v) = lh_used h.
Proof. field_other. Qed.
Lemma used_set_search_pos h v : lh_used (lh_set_search_pos h v) = lh_used h.
Proof. reflexivity. Qed.

Lemma glue_set_glue h v : lh_ok h -> v < 4294967296 ->
  lh_glue (lh_set_glue h v) = N.min v 63.
Proof.
  intros H Hv. unfold lh_glue, lh_set_glue. simpl. rewrite to_u32_small by auto.
  rewrite hw_field_set_same by (try apply lh_ok32; auto; vm_compute; discriminate).
  unfold sat. change (N.ones GLUE_WIDTH) with 63. destruct (N.ltb_spec 63 v); lia.
Qed.
Lemma used_set_used h v : lh_ok h -> v < 4294967296 ->
  lh_used (lh_set_used h v) = N.min v 3.
Proof.
  intros H Hv. unfold lh_used, lh_set_used. simpl. rewrite to_u32_small by auto.
  rewrite hw_field_set_same by (try apply lh_ok32; auto; vm_compute; discriminate).
  unfold sat. change (N.ones USED_WIDTH) with 3. destruct (N.ltb_spec 3 v); lia.
Qed.

Lemma lh_glue_le h : lh_glue h <= 63.
Proof. pose proof (hw_field_lt GLUE_START GLUE_WIDTH (lh_w0 h)). unfold lh_glue.
  change (2 ^ GLUE_WIDTH) with 64 in H. lia. Qed.
Lemma lh_used_le h : lh_used h <= 3.
Proof. pose proof (hw_field_lt USED_START USED_WIDTH (lh_w0 h)). unfold lh_used.
  change (2 ^ USED_WIDTH) with 4 in H. lia. Qed.

(** ** Scores *)

Lemma lor_disjoint k n b : b < 2 ^ n -> N.lor (k * 2 ^ n) b = k * 2 ^ n + b.
Proof.
  intro H. assert (E : N.land (k * 2 ^ n) b = 0).
  { apply N.bits_inj. intro i. rewrite N.land_spec, N.bits_0, <- N.shiftl_mul_pow2, shiftl_bit.
    destruct (N.leb_spec n i); simpl; auto. rewrite (testbit_high b n) by auto. apply andb_false_r. }
  rewrite <- N.lxor_lor by auto. symmetry. apply N.add_nocarry_lxor. auto.
Qed.

Lemma score_hi used glue : used <= 3 -> glue <= 63 ->
  score_set_glue (score_set_inv_used 0 (not64 used)) glue =
  ((3 - used) * 64 + glue) * 2 ^ 24.
Proof.
  intros Hu Hg.
  assert (C : forallb (fun u => forallb (fun g =>
     score_set_glue (score_set_inv_used 0 (not64 (N.of_nat u))) (N.of_nat g) =?
     ((3 - N.of_nat u) * 64 + N.of_nat g) * 2 ^ 24) (seq 0 64)) (seq 0 4) = true)
    by (vm_compute; reflexivity).
  rewrite forallb_forall in C. specialize (C (N.to_nat used)).
  rewrite in_seq in C. specialize (C ltac:(lia)). rewrite forallb_forall in C.
  specialize (C (N.to_nat glue)). rewrite in_seq in C. specialize (C ltac:(lia)).
  rewrite !N2Nat.id in C. apply N.eqb_eq in C. exact C.
Qed.

Lemma clause_score_val used glue len : used <= 3 -> glue <= 63 ->
  clause_score used glue len =
  ((3 - used) * 64 + glue) * 2 ^ 24 + N.min len (2 ^ 24 - 1).
Proof.
  intros Hu Hg. unfold clause_score. rewrite score_hi by auto.
  set (k := (3 - used) * 64 + glue). assert (Hk : k < 256) by (unfold k; lia).
  unfold score_set_len, bf_set_clamp, bf_mask.
  rewrite ones_shift, !N.shiftl_0_r.
  assert (E : N.land (k * 2 ^ 24) (not32 (N.ones 24)) = k * 2 ^ 24).
  { apply N.bits_inj. intro i. rewrite N.land_spec, not32_bit, ones_bit.
    rewrite <- N.shiftl_mul_pow2, shiftl_bit.
    destruct (N.leb_spec 24 i); simpl; auto.
    destruct (N.ltb_spec i 24); [lia|]. simpl.
    destruct (N.ltb_spec i 32); [apply andb_true_r|].
    rewrite (testbit_high k 8) by (try (change (2^8) with 256); lia). reflexivity. }
  rewrite E. change (N.ones 24) with (2 ^ 24 - 1).
  assert (E2 : (if 2 ^ 24 - 1 <? len then 2 ^ 24 - 1 else len) = N.min len (2 ^ 24 - 1)).
  { destruct (N.ltb_spec (2 ^ 24 - 1) len); lia. }
  rewrite E2. apply lor_disjoint. change (2 ^ 24) with 16777216. lia.
Qed.

Lemma score_lex (u1 g1 n1 u2 g2 n2 : N) :
  u1 <= 3 -> g1 <= 63 -> u2 <= 3 -> g2 <= 63 ->
  let m1 := N.min n1 16777215 in let m2 := N.min n2 16777215 in
  clause_score u1 g1 n1 < clause_score u2 g2 n2 <->
  (u2 < u1 \/ (u1 = u2 /\ (g1 < g2 \/ (g1 = g2 /\ m1 < m2)))).
Proof.
  intros. rewrite !clause_score_val by auto. change (2 ^ 24) with 16777216.
  assert (m1 <= 16777215) by (subst m1; lia). assert (m2 <= 16777215) by (subst m2; lia).
  change (16777216 - 1) with 16777215 in *. fold m1 m2. clearbody m1 m2. lia.
Qed.
