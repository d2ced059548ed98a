(** DRAT encoders are inverted by the decoders. *)
From Coq Require Import NArith ZArith List Bool Arith Lia ZifyN ZifyNat ZifyBool.
From Coq Require DecimalN.
From Verif Require Import Model_Base Model_Lit Model_Prop Model_Drat Spec Spec_Format Drivers Proof_Base Proof_Header.
Import ListNotations.
Local Open Scope N_scope.

Definition step_lits (s : proof_step) : list N := match s with PAdd c => c | PDelete c => c end.

Lemma lit_dimacs_spec l : lit_dimacs l = dimacs l.
Proof.
  unfold lit_dimacs, dimacs, var_dimacs. rewrite lit_var_div, lit_pos_odd.
  destruct (N.odd l); lia.
Qed.

(** ** Binary *)

Lemma lor128 a : a < 128 -> N.lor a 128 = a + 128.
Proof.
  intro H. rewrite N.lor_comm. change 128 with (1 * 2 ^ 7) at 1.
  rewrite lor_disjoint by exact H. lia.
Qed.

Lemma byte_hi c : N.lor (c mod 256) 128 = c mod 128 + 128.
Proof.
  assert (E : c mod 256 = (c / 128) mod 2 * 128 + c mod 128).
  { symmetry. apply (N.mod_unique _ 256 (c / 256)).
    - pose proof (N.mod_lt (c/128) 2 ltac:(lia)). pose proof (N.mod_lt c 128 ltac:(lia)). lia.
    - replace (c / 256) with (c / 128 / 2) by (rewrite N.div_div by lia; reflexivity).
      pose proof (N.div_mod c 128 ltac:(lia)). pose proof (N.div_mod (c/128) 2 ltac:(lia)). lia. }
  pose proof (N.mod_lt c 128 ltac:(lia)) as Hm.
  pose proof (N.mod_lt (c/128) 2 ltac:(lia)).
  rewrite E. assert ((c / 128) mod 2 = 0 \/ (c / 128) mod 2 = 1) as [->| ->] by lia.
  - simpl (0 * 128 + _). apply lor128. auto.
  - change (1 * 128) with (1 * 2 ^ 7). rewrite <- lor_disjoint by exact Hm.
    rewrite <- N.lor_assoc, (N.lor_comm (c mod 128)), N.lor_assoc.
    change (N.lor (1 * 2 ^ 7) 128) with (1 * 2 ^ 7).
    rewrite lor_disjoint by exact Hm. change (1 * 2 ^ 7) with 128. lia.
Qed.

Lemma varint_decode fuel c rest bs scale acc :
  write_varint fuel c = Ret bs ->
  read_leb (bs ++ rest) scale acc = Some (acc + c * scale, rest).
Proof.
  revert c bs scale acc; induction fuel; intros c bs scale acc H; cbn [write_varint] in H; [discriminate|].
  destruct (N.leb_spec 128 c).
  - apply bind_ret in H as (r & E & H). inv H. cbn [app read_leb].
    rewrite byte_hi. pose proof (N.mod_lt c 128 ltac:(lia)).
    destruct (N.ltb_spec (c mod 128 + 128) 128); [lia|].
    rewrite (IHfuel _ _ _ _ E). do 2 f_equal.
    rewrite N.shiftr_div_pow2. change (2 ^ 7) with 128.
    pose proof (N.div_mod c 128 ltac:(lia)).
    replace (c mod 128 + 128 - 128) with (c mod 128) by lia.
    rewrite H2 at 3. lia.
  - inv H. cbn [app read_leb]. rewrite (N.mod_small c 256) by lia.
    destruct (N.ltb_spec c 128); [|lia]. reflexivity.
Qed.

Lemma varint_ok fuel c : (N.to_nat (N.size c) < fuel)%nat -> exists bs, write_varint fuel c = Ret bs.
Proof.
  revert c; induction fuel; intros c H; [lia|]. cbn [write_varint].
  destruct (N.leb_spec 128 c); [|eauto].
  destruct (IHfuel (N.shiftr c 7)) as (bs & ->); [|simpl; eauto].
  assert (N.size (N.shiftr c 7) < N.size c); [|lia].
  rewrite !N.size_log2 by (try (rewrite N.shiftr_div_pow2; change (2^7) with 128;
     pose proof (N.div_le_lower_bound c 128 1 ltac:(lia) ltac:(lia)); lia); lia).
  rewrite N.log2_shiftr. pose proof (N.log2_le_mono 128 c ltac:(lia)).
  change (N.log2 128) with 7 in H1. lia.
Qed.

Lemma size_nat_spec c : N.size_nat c = N.to_nat (N.size c).
Proof.
  destruct c as [|p]; [reflexivity|]. simpl. induction p; simpl; auto; rewrite IHp;
  rewrite Pnat.Pos2Nat.inj_succ; reflexivity.
Qed.

Lemma write_lit_ok l : exists bs, bdrat_write_lit l = Ret bs.
Proof. unfold bdrat_write_lit. apply varint_ok. rewrite size_nat_spec. lia. Qed.

Lemma varint_nonempty fuel c bs : write_varint fuel c = Ret bs -> bs <> [].
Proof. destruct fuel; simpl; [discriminate|]. destruct (128 <=? c); intro H; repeat mstep; discriminate. Qed.

Lemma unmap_lnot l : unmap_lit (lnot l + 2) = dimacs l.
Proof.
  rewrite lnot_neg. unfold unmap_lit, dimacs.
  assert (E : neg l + 2 = neg l + 2 * 1) by lia. rewrite E, N.odd_add_mul_2, neg_odd.
  replace ((neg l + 2 * 1) / 2) with (l / 2 + 1).
  - destruct (N.odd l); reflexivity.
  - replace (neg l + 2 * 1) with (neg l + 1 * 2) by lia. rewrite N.div_add by lia.
    rewrite neg_var. reflexivity.
Qed.

Lemma read_clause_ok c bs rest fuel :
  mapM bdrat_write_lit c = Ret bs -> (length c < fuel)%nat ->
  read_clause fuel (concat bs ++ [0] ++ rest) = Some (map dimacs c, rest).
Proof.
  revert bs fuel; induction c as [|l c IH]; intros bs fuel H Hf; simpl in H.
  - inv H. destruct fuel; [simpl in Hf; lia|]. reflexivity.
  - repeat mstep. destruct fuel; [simpl in Hf; lia|]. cbn [concat read_clause].
    rewrite <- app_assoc. unfold bdrat_write_lit in E.
    rewrite (varint_decode _ _ _ _ _ _ E). rewrite N.add_0_l, N.mul_1_r.
    destruct (N.eqb_spec (lnot l + 2) 0); [lia|].
    rewrite (IH _ fuel E0) by (simpl in Hf; lia). rewrite unmap_lnot. reflexivity.
Qed.

Lemma concat_length_ge (bs : list (list N)) :
  (forall b, In b bs -> b <> []) -> (length bs <= length (concat bs))%nat.
Proof.
  induction bs; simpl; intro H; [lia|]. rewrite app_length.
  assert (a <> []) by auto. destruct a; [congruence|]. simpl. specialize (IHbs ltac:(auto)). lia.
Qed.

Lemma write_lits_len c bs : mapM bdrat_write_lit c = Ret bs -> (length c <= length (concat bs))%nat.
Proof.
  intro H. apply mapM_Forall2 in H. pose proof (Forall2_len H) as E. rewrite E.
  apply concat_length_ge. intros b Hb.
  clear E. induction H; simpl in Hb; [contradiction|]. destruct Hb as [->|Hb]; auto.
  eapply varint_nonempty. exact H.
Qed.

Lemma bdrat_decode log bs fuel : bdrat_output log = Ret bs -> (length log < fuel)%nat ->
  read_bdrat fuel bs = Some (map zs_of log).
Proof.
  unfold bdrat_output. intro H. apply bind_ret in H as (bss & E & H). inv H.
  revert bss E fuel; induction log as [|s log IH]; intros bss E fuel Hf; simpl in E.
  - inv E. destruct fuel; [lia|]. reflexivity.
  - repeat mstep. destruct fuel as [|fuel]; [simpl in Hf; lia|]. simpl in Hf.
    assert (exists tag bc, mapM bdrat_write_lit (step_lits s) = Ret bc /\
              r = tag :: concat bc ++ [0] /\
              tag = match s with PAdd _ => 97 | PDelete _ => 100 end) as (tag & bc & E1 & -> & Et).
    { destruct s; simpl in E0; unfold bdrat_add_clause, bdrat_delete_clause, bdrat_write_lits in E0;
      repeat mstep; eauto. }
    cbn [concat app read_bdrat]. rewrite <- app_assoc.
    rewrite (read_clause_ok _ _ _ _ E1).
    2:{ rewrite !app_length. pose proof (write_lits_len _ _ E1). simpl. lia. }
    rewrite (IH _ E fuel) by lia.
    rewrite Et. destruct s; reflexivity.
Qed.

Lemma bdrat_output_ok log : exists bs, bdrat_output log = Ret bs.
Proof.
  unfold bdrat_output.
  destruct (mapM_ok bdrat_step log) as (bs & ->); [|simpl; eauto].
  intros s _. destruct s; simpl; unfold bdrat_add_clause, bdrat_delete_clause, bdrat_write_lits;
  destruct (mapM_ok bdrat_write_lit lits) as (b & ->); simpl; eauto using write_lit_ok.
Qed.

Lemma bdrat_len log bs : bdrat_output log = Ret bs -> (length log <= length bs)%nat.
Proof.
  unfold bdrat_output. intro H. apply bind_ret in H as (bss & E & H). inv H.
  apply mapM_Forall2 in E. rewrite (Forall2_len E). apply concat_length_ge.
  intros b Hb. induction E; simpl in Hb; [contradiction|]. destruct Hb as [->|Hb]; auto.
  destruct x; simpl in H; unfold bdrat_add_clause, bdrat_delete_clause in H; repeat mstep; discriminate.
Qed.

Lemma bdrat_roundtrip log : exists bs,
  bdrat_output log = Ret bs /\ decode_bdrat bs = Some (map zs_of log).
Proof.
  destruct (bdrat_output_ok log) as (bs & E). exists bs. split; auto.
  apply bdrat_decode; auto. pose proof (bdrat_len _ _ E). lia.
Qed.

Lemma varint_bytes fuel c bs : write_varint fuel c = Ret bs -> Forall (fun b => b < 256) bs.
Proof.
  revert c bs; induction fuel; intros c bs H; cbn [write_varint] in H; [discriminate|].
  destruct (N.leb_spec 128 c).
  - apply bind_ret in H as (r & E & H). inv H. constructor; eauto.
    rewrite byte_hi. pose proof (N.mod_lt c 128 ltac:(lia)). lia.
  - inv H. constructor; auto. apply N.mod_lt. lia.
Qed.

Lemma mapM_concat_Forall {A} (P : N -> Prop) (f : A -> res (list N)) l bs :
  (forall a b, f a = Ret b -> Forall P b) -> mapM f l = Ret bs -> Forall P (concat bs).
Proof.
  intros Hf H. apply mapM_Forall2 in H. induction H; simpl; auto. apply Forall_app. eauto.
Qed.

Lemma bdrat_bytes log bs : bdrat_output log = Ret bs -> Forall (fun b => b < 256) bs.
Proof.
  unfold bdrat_output. intro H. apply bind_ret in H as (bss & E & H). inv H.
  eapply mapM_concat_Forall; [|exact E]. intros s b Hs.
  destruct s; simpl in Hs; unfold bdrat_add_clause, bdrat_delete_clause, bdrat_write_lits in Hs;
    repeat mstep; constructor; try reflexivity; apply Forall_app; split;
    try (repeat constructor; reflexivity);
    (eapply mapM_concat_Forall; [|eassumption]; intros; eapply varint_bytes; eassumption).
Qed.

(** ** Text *)

Lemma read_digits_acc u p :
  read_digits (uint_bytes u) (Npos p) = Some (Npos (Pos.of_uint_acc u p)).
Proof.
  revert p; induction u; intro p; cbn [uint_bytes read_digits Pos.of_uint_acc]; auto;
  match goal with |- context [if ?b then _ else _] => change b with true end; cbv iota;
  rewrite <- IHu; f_equal; lia.
Qed.

Lemma read_digits_uint u : read_digits (uint_bytes u) 0 = Some (N.of_uint u).
Proof.
  unfold N.of_uint. induction u; cbn [uint_bytes read_digits Pos.of_uint]; auto;
  match goal with |- context [if ?b then _ else _] => change b with true end; cbv iota;
  try apply IHu; rewrite <- read_digits_acc; reflexivity.
Qed.

Lemma read_digits_N n : read_digits (uint_bytes (N.to_uint n)) 0 = Some n.
Proof. rewrite read_digits_uint. f_equal. apply DecimalN.Unsigned.of_to. Qed.

Definition digit (b : N) : Prop := 48 <= b /\ b <= 57.
Lemma uint_digits u b : In b (uint_bytes u) -> digit b.
Proof. unfold digit. induction u; simpl; intros H; try contradiction; destruct H as [<-|H]; auto; lia. Qed.

Lemma uint_bytes_nonempty n : uint_bytes (N.to_uint n) <> [].
Proof.
  intro H. assert (E : N.to_uint n = Decimal.Nil) by (destruct (N.to_uint n); simpl in H; congruence).
  pose proof (DecimalN.Unsigned.of_to n) as H1. rewrite E in H1. simpl in H1. subst n.
  discriminate E.
Qed.

Lemma ascii_read z : read_int (ascii_digits z) = Some z.
Proof.
  unfold ascii_digits. pose proof (uint_bytes_nonempty (Z.abs_N z)) as Hne.
  assert (R : read_nat (uint_bytes (N.to_uint (Z.abs_N z))) = Some (Z.abs_N z)).
  { unfold read_nat. rewrite read_digits_N.
    destruct (uint_bytes (N.to_uint (Z.abs_N z))); congruence. }
  destruct (Z.ltb_spec z 0).
  - cbn [app read_int]. change (45 =? 45) with true. cbv iota. rewrite R. simpl. f_equal. lia.
  - cbn [app]. unfold read_int. rewrite R.
    pose proof (uint_digits (N.to_uint (Z.abs_N z))) as Hd.
    destruct (uint_bytes (N.to_uint (Z.abs_N z))) as [|b r] eqn:Eu; [congruence|].
    assert (Hb : digit b) by (apply Hd; left; auto). unfold digit in Hb.
    destruct (N.eqb_spec b 45); [lia|]. simpl. f_equal. lia.
Qed.

Lemma ascii_nospace z b : In b (ascii_digits z) -> is_space b = false.
Proof.
  unfold ascii_digits, is_space. rewrite in_app_iff. intros [H|H].
  - destruct (z <? 0)%Z; simpl in H; [|contradiction]. destruct H as [<-|[]]. reflexivity.
  - apply uint_digits in H. unfold digit in H. lia.
Qed.

Lemma ascii_nonempty z : ascii_digits z <> [].
Proof.
  unfold ascii_digits. pose proof (uint_bytes_nonempty (Z.abs_N z)).
  intro E. apply app_eq_nil in E. tauto.
Qed.

Lemma tokens_word w rest cur sep :
  (forall b, In b w -> is_space b = false) -> is_space sep = true -> cur ++ w <> [] ->
  tokens cur (w ++ sep :: rest) = (cur ++ w) :: tokens [] rest.
Proof.
  revert cur; induction w; intros cur Hw Hs Hne; simpl.
  - rewrite Hs. rewrite app_nil_r in *. destruct cur; [congruence|]. reflexivity.
  - rewrite Hw by (left; auto). rewrite IHw.
    + rewrite <- app_assoc. reflexivity.
    + intros; apply Hw; right; auto.
    + auto.
    + destruct cur; discriminate.
Qed.

Lemma tokens_word0 w rest sep :
  (forall b, In b w -> is_space b = false) -> is_space sep = true -> w <> [] ->
  tokens [] (w ++ sep :: rest) = w :: tokens [] rest.
Proof. intros. apply (tokens_word w rest [] sep); auto. Qed.

Lemma tokens_clause c rest :
  tokens [] (drat_add_clause c ++ rest) =
  map (fun l => ascii_digits (dimacs l)) c ++ [48] :: tokens [] rest.
Proof.
  unfold drat_add_clause. rewrite <- app_assoc. induction c as [|l c IH]; [reflexivity|].
  cbn [flat_map map]. rewrite <- !app_assoc.
  etransitivity; [apply (tokens_word0 (ascii_digits (lit_dimacs l)) _ 32)|].
  - intros. eapply ascii_nospace; eauto.
  - reflexivity.
  - apply ascii_nonempty.
  - rewrite IH, lit_dimacs_spec. reflexivity.
Qed.

Lemma dimacs_nonzero l : dimacs l <> 0%Z.
Proof. unfold dimacs. destruct (N.odd l); lia. Qed.

Lemma ascii_not_d z : is_token 100 (ascii_digits z) = false.
Proof.
  destruct (is_token 100 (ascii_digits z)) eqn:E; auto. exfalso.
  assert (F : ascii_digits z = [100]).
  { unfold is_token in E. destruct (ascii_digits z) as [|b [|]]; try discriminate.
    apply N.eqb_eq in E. congruence. }
  clear E. unfold ascii_digits in F. destruct (z <? 0)%Z.
  - inv F.
  - cbn [app] in F. assert (digit 100) by (apply (uint_digits (N.to_uint (Z.abs_N z))); rewrite F; simpl; auto).
    unfold digit in H. lia.
Qed.

Lemma read_drat_lit l ts del cur :
  read_drat (ascii_digits (dimacs l) :: ts) del cur = read_drat ts del (cur ++ [dimacs l]).
Proof.
  cbn [read_drat]. rewrite ascii_read, ascii_not_d.
  pose proof (dimacs_nonzero l) as Hz. destruct (Z.eqb_spec (dimacs l) 0); [congruence|]. reflexivity.
Qed.

Lemma read_drat_clause c ts del cur :
  read_drat (map (fun l => ascii_digits (dimacs l)) c ++ [48] :: ts) del cur =
  match read_drat ts false [] with
  | None => None
  | Some steps => Some ((if del then ZDel (cur ++ map dimacs c) else ZAdd (cur ++ map dimacs c)) :: steps)
  end.
Proof.
  revert cur; induction c as [|l c IH]; intro cur.
  - simpl. rewrite app_nil_r. reflexivity.
  - cbn [map app]. rewrite read_drat_lit, IH. rewrite <- app_assoc. reflexivity.
Qed.

Lemma drat_roundtrip log : decode_drat (drat_output log) = Some (map zs_of log).
Proof.
  unfold decode_drat, drat_output. induction log as [|s log IH]; [reflexivity|].
  cbn [flat_map]. destruct s; cbn [drat_step].
  - rewrite tokens_clause, read_drat_clause, IH. reflexivity.
  - unfold drat_delete_clause. rewrite <- app_assoc. cbn [app].
    change (tokens [] (100 :: 32 :: drat_add_clause lits ++ flat_map drat_step log))
      with ([100] :: tokens [] (drat_add_clause lits ++ flat_map drat_step log)).
    rewrite tokens_clause. cbn [read_drat]. rewrite read_drat_clause, IH. reflexivity.
Qed.
