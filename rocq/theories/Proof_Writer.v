(** The buffered writer, and truncated proofs. *)
From Coq Require Import NArith ZArith List Bool Arith Lia ZifyN ZifyNat ZifyBool.
From Verif Require Import Model_Base Model_Lit Model_Prop Model_Solver Model_Drat Model_Cli Model_Writer Spec Spec_Format Drivers
  Proof_Base Proof_Header Proof_Drat.
Import ListNotations.

(** [total] is what was written so far. *)
Record DWI (w : faults) (d : dwriter) (total : list N) : Prop := {
  dwi_ok : dw_err d = false -> os_file (dw_os d) ++ dw_buf d = total /\ forall i, i < os_calls (dw_os d) -> w i = None;
  dwi_err : dw_err d = true -> (exists r, total = os_file (dw_os d) ++ r) /\ exists i, i < os_calls (dw_os d) /\ w i <> None }.

Lemma DWI_new w : DWI w dw_new [].
Proof. constructor; cbn; [|discriminate]. intros _. split; auto. lia. Qed.

Lemma os_write_ok w o bs b o' : os_write w o bs = (b, o') -> (forall i, i < os_calls o -> w i = None) ->
  (b = true -> os_file o' = os_file o ++ bs /\ forall i, i < os_calls o' -> w i = None) /\
  (b = false -> (exists r, os_file o ++ bs = os_file o' ++ r) /\ exists i, i < os_calls o' /\ w i <> None).
Proof.
  unfold os_write. intros E H. destruct bs as [|x bs].
  - inversion E; subst. split; [|discriminate]. rewrite app_nil_r. auto.
  - destruct (w (os_calls o)) as [k|] eqn:Ew; inversion E; subst; clear E; cbn [os_file os_calls].
    + split; [discriminate|]. intros _. split.
      * exists (skipn k (x :: bs)). rewrite <- app_assoc, firstn_skipn. auto.
      * exists (os_calls o). split; [lia|congruence].
    + split; [|discriminate]. intros _. split; auto. intros i Hi. destruct (Nat.eq_dec i (os_calls o)); [congruence|]. apply H. lia.
Qed.

Lemma DWI_flush w d total : DWI w d total -> DWI w (dw_flush w d) total /\ dw_buf (dw_flush w d) = [].
Proof.
  intros [A B]. unfold dw_flush. destruct (dw_err d) eqn:Ee.
  - split; [|reflexivity]. constructor; cbn [dw_err dw_os dw_buf]; [discriminate|]. auto.
  - destruct (A eq_refl) as [A1 A2]. destruct (os_write w (dw_os d) (dw_buf d)) as [b o'] eqn:E.
    destruct (os_write_ok _ _ _ _ _ E A2) as [C D]. split; [|reflexivity]. constructor; cbn [dw_err dw_os dw_buf]; intro Hb.
    + destruct C as [C1 C2]; [destruct b; auto; discriminate|]. rewrite app_nil_r, C1. auto.
    + destruct D as [(r & D1) D2]; [destruct b; auto; discriminate|]. rewrite A1 in D1. eauto.
Qed.

Lemma DWI_buf w d total bs : DWI w d total -> DWI w (mkDw (dw_os d) (dw_buf d ++ bs) (dw_err d)) (total ++ bs).
Proof.
  intros [A B]. constructor; cbn [dw_err dw_os dw_buf]; intro Hb.
  - destruct (A Hb) as [<- A2]. rewrite <- app_assoc. auto.
  - destruct (B Hb) as [(r & ->) B2]. split; auto. exists (r ++ bs). rewrite app_assoc. auto.
Qed.

Lemma DWI_write w cap d total bs : DWI w d total -> DWI w (dw_write w cap d bs) (total ++ bs).
Proof.
  intro H. unfold dw_write. destruct (_ <=? _); [apply DWI_buf; auto|].
  set (k := if length bs <? cap then cap - length (dw_buf d) else 0). set (d0 := mkDw (dw_os d) (dw_buf d ++ firstn k bs) (dw_err d)).
  assert (H0 : DWI w d0 (total ++ firstn k bs)) by (apply DWI_buf; auto).
  destruct (DWI_flush _ _ _ H0) as [H1 B1]. set (d1 := dw_flush w d0) in *.
  assert (Et : total ++ bs = (total ++ firstn k bs) ++ skipn k bs) by (rewrite <- app_assoc, firstn_skipn; auto).
  rewrite Et. destruct (length (skipn k bs) <? cap); [apply DWI_buf; auto|].
  destruct (dw_err d1) eqn:Ee.
  - constructor; [congruence|]. intros _. destruct H1 as [_ B]. destruct (B Ee) as [(r & ->) B2]. split; auto. exists (r ++ skipn k bs). rewrite app_assoc. auto.
  - destruct H1 as [A _]. destruct (A Ee) as [A1 A2]. rewrite B1, app_nil_r in A1. destruct (os_write w (dw_os d1) (skipn k bs)) as [b o'] eqn:E.
    destruct (os_write_ok _ _ _ _ _ E A2) as [C D]. constructor; cbn [dw_err dw_os dw_buf]; intro Hb.
    + destruct C as [C1 C2]; [destruct b; auto; discriminate|]. rewrite B1, app_nil_r, C1, A1. auto.
    + destruct D as [(r & D1) D2]; [destruct b; auto; discriminate|]. rewrite A1 in D1. eauto.
Qed.

Lemma DWI_writes w cap cs : forall d total, DWI w d total -> DWI w (dw_writes w cap cs d) (total ++ concat cs).
Proof.
  unfold dw_writes. induction cs as [|c cs IH]; intros d total H; cbn [fold_left concat]; [rewrite app_nil_r; auto|].
  rewrite app_assoc. apply IH. apply DWI_write; auto.
Qed.

(** ** The slices make up the encoded steps *)
Lemma drat_chunks_bytes s : concat (drat_chunks s) = drat_step s.
Proof.
  assert (A : forall c, concat (flat_map (fun l => [ascii_digits (lit_dimacs l); [32%N]]) c) = flat_map (fun l => ascii_digits (lit_dimacs l) ++ [32%N]) c).
  { induction c as [|l c IH]; [reflexivity|]. cbn [flat_map app concat]. rewrite IH, <- app_assoc. reflexivity. }
  destruct s; cbn [drat_chunks drat_step]; unfold drat_delete_clause, drat_add_clause.
  - rewrite concat_app, A. reflexivity.
  - cbn [app concat]. rewrite concat_app, A. reflexivity.
Qed.
Lemma concat_single {A} (l : list A) : concat (map (fun b => [b]) l) = l.
Proof. induction l as [|x l IH]; [reflexivity|]. cbn. congruence. Qed.
Lemma chunks_bytes f log : exists cs bs, chunks f log = Ret cs /\ proof_bytes f log = Ret bs /\ concat cs = bs.
Proof.
  destruct f; cbn [chunks proof_bytes].
  - eexists _, _. split; [reflexivity|]. split; [reflexivity|]. unfold drat_output.
    induction log as [|s log IH]; [reflexivity|]. cbn [flat_map]. rewrite concat_app, IH, drat_chunks_bytes. reflexivity.
  - unfold bdrat_output. induction log as [|s log IH]; [exists [], []; auto|].
    destruct IH as (cs & bs & E1 & E2 & E3). cbn [mapM].
    apply bind_ret in E1 as (a & Ea & Ha). apply bind_ret in E2 as (b & Eb & Hb). inversion Ha; inversion Hb; subst. rewrite Ea, Eb. cbn [bind].
    destruct (bdrat_output_ok [s]) as (x & Ex). unfold bdrat_output in Ex. cbn [mapM] in Ex. unfold bdrat_chunks.
    destruct (bdrat_step s) as [y| |]; try discriminate. cbn [bind].
    eexists _, _. split; [reflexivity|]. split; [reflexivity|]. cbn [concat]. rewrite concat_app, concat_single. f_equal; auto.
Qed.
Lemma proof_bytes_app f a b : exists x y, proof_bytes f a = Ret x /\ proof_bytes f b = Ret y /\ proof_bytes f (a ++ b) = Ret (x ++ y).
Proof.
  destruct f; cbn [proof_bytes].
  - eexists _, _. split; [reflexivity|]. split; [reflexivity|]. unfold drat_output. rewrite flat_map_app. reflexivity.
  - destruct (bdrat_output_ok a) as (x & Ex), (bdrat_output_ok b) as (y & Ey). exists x, y. split; auto. split; auto.
    unfold bdrat_output in *. apply bind_ret in Ex as (u & Eu & Hu). apply bind_ret in Ey as (v & Ev & Hv). inversion Hu; inversion Hv; subst.
    assert (Q : mapM bdrat_step (a ++ b) = Ret (u ++ v)).
    { clear Hu Hv. revert u Eu. induction a as [|s a IH]; intros u Eu; cbn [mapM app] in *; [inversion Eu; subst; auto|].
      apply bind_ret in Eu as (h & Eh & Eu). apply bind_ret in Eu as (t & Et & Eu). inversion Eu; subst. rewrite Eh, (IH _ Et). reflexivity. }
    rewrite Q. cbn [bind]. rewrite concat_app. reflexivity.
Qed.

(** ** Prefixes of an encoded proof *)
Lemma app_cut {A} (u v a b : list A) : u ++ v = a ++ b ->
  (exists x, u = a ++ x /\ x <> [] /\ b = x ++ v) \/ (exists x, a = u ++ x /\ v = x ++ b).
Proof.
  revert a. induction u as [|x u IH]; intros a E; [right; exists a; auto|].
  destruct a as [|y a]; cbn [app] in E.
  - left. exists (x :: u). split; auto. split; [discriminate|]. symmetry. exact E.
  - inversion E; subst y. destruct (IH a H1) as [(z & -> & Hz & ->)|(z & -> & ->)]; [left; exists z; auto|right; exists z; auto].
Qed.

Lemma cut_steps f log : forall b r, proof_bytes f log = Ret (b ++ r) ->
  exists pre post b1 tail, log = pre ++ post /\ proof_bytes f pre = Ret b1 /\ b = b1 ++ tail /\
    (tail = [] \/ exists st post' t2, post = st :: post' /\ proof_bytes f [st] = Ret (tail ++ t2) /\ t2 <> []).
Proof.
  induction log as [|s log IH]; intros b r E.
  - assert (Z : proof_bytes f [] = Ret []) by (destruct f; reflexivity). rewrite Z in E. inversion E as [Q]. symmetry in Q. apply app_eq_nil in Q as [-> ->].
    exists [], [], [], []. auto.
  - destruct (proof_bytes_app f [s] log) as (x & y & E1 & E2 & E3). cbn [app] in E3. rewrite E in E3. inversion E3 as [Q].
    destruct (app_cut _ _ _ _ (eq_sym Q)) as [(t & -> & Ht & ->)|(t & -> & ->)].
    + exists [], (s :: log), [], b. split; auto. split; [destruct f; reflexivity|]. split; auto. right. exists s, log, t. auto.
    + destruct (IH t r E2) as (pre & post & b1 & tail & -> & Eb & -> & Ht).
      destruct (proof_bytes_app f [s] pre) as (x' & y' & F1 & F2 & F3). rewrite E1 in F1. inversion F1; subst x'. rewrite Eb in F2. inversion F2; subst y'.
      exists (s :: pre), post, (x ++ b1), tail. split; auto. split; auto. split; [rewrite app_assoc; auto|]. auto.
Qed.

(** *** Binary *)
Lemma leb_cut fuel : forall c a b scale acc, write_varint fuel c = Ret (a ++ b) -> b <> [] -> read_leb a scale acc = None.
Proof.
  induction fuel as [|f IH]; intros c a b scale acc H Hb; cbn [write_varint] in H; [discriminate|].
  destruct (N.leb_spec 128 c) as [G|G].
  - apply bind_ret in H as (r & E & H). inversion H as [Q]. destruct a as [|x a]; [reflexivity|]. cbn [app] in Q. inversion Q; subst.
    cbn [read_leb]. rewrite byte_hi. pose proof (N.mod_lt c 128 ltac:(lia)). destruct (N.ltb_spec (c mod 128 + 128) 128); [lia|].
    eapply IH; eauto.
  - inversion H as [Q]. destruct a as [|x a]; [reflexivity|]. cbn [app] in Q. inversion Q as [[Q1 Q2]]. symmetry in Q2. apply app_eq_nil in Q2 as [_ Q2]. contradiction.
Qed.
Lemma clause_cut c : forall bs a b fuel, mapM bdrat_write_lit c = Ret bs -> concat bs ++ [0%N] = a ++ b -> b <> [] -> read_clause fuel a = None.
Proof.
  induction c as [|l c IH]; intros bs a b fuel H E Hb; destruct fuel as [|fuel]; try reflexivity; cbn [mapM] in H.
  - inversion H; subst. cbn [concat app] in E. destruct a as [|x a]; [reflexivity|]. cbn [app] in E. inversion E as [[Q1 Q2]]. symmetry in Q2.
    apply app_eq_nil in Q2 as [_ Q2]. contradiction.
  - apply bind_ret in H as (w & Ew & H). apply bind_ret in H as (bs' & Eb & H). inversion H; subst. cbn [concat] in E. rewrite <- app_assoc in E.
    cbn [read_clause]. destruct (app_cut _ _ _ _ E) as [(t & -> & Ht & _)|(t & -> & E')].
    + unfold bdrat_write_lit in Ew. rewrite (leb_cut _ _ _ _ _ _ Ew Ht). reflexivity.
    + unfold bdrat_write_lit in Ew. rewrite (varint_decode _ _ _ _ _ _ Ew), N.add_0_l, N.mul_1_r.
      destruct (N.eqb_spec (lnot l + 2) 0); [lia|]. rewrite (IH _ _ _ _ Eb E' Hb). reflexivity.
Qed.
Lemma bdrat_step_shape s : exists tag bc, mapM bdrat_write_lit (step_lits s) = Ret bc /\ bdrat_step s = Ret (tag :: concat bc ++ [0%N]) /\
  tag = match s with PAdd _ => 97%N | PDelete _ => 100%N end.
Proof.
  destruct (bdrat_output_ok [s]) as (x & E). unfold bdrat_output in E. cbn [mapM] in E.
  destruct s; cbn [bdrat_step step_lits] in *; unfold bdrat_add_clause, bdrat_delete_clause, bdrat_write_lits in *;
    (destruct (mapM bdrat_write_lit lits) as [bc| |]; try discriminate; cbn [bind] in *; eauto 10).
Qed.
Lemma bdrat_cut pre : forall fuel b1 st tail t2, bdrat_output pre = Ret b1 -> bdrat_step st = Ret (tail ++ t2) -> t2 <> [] -> tail <> [] ->
  read_bdrat fuel (b1 ++ tail) = None.
Proof.
  induction pre as [|s pre IH]; intros fuel b1 st tail t2 E Es H2 Ht; destruct fuel as [|fuel]; try reflexivity.
  - inversion E; subst. cbn [app]. destruct tail as [|tag r]; [contradiction|]. cbn [read_bdrat].
    destruct (bdrat_step_shape st) as (tg & bc & E1 & E2 & _). rewrite E2 in Es. inversion Es as [[Q1 Q2]].
    rewrite (clause_cut _ _ _ _ _ E1 Q2 H2). reflexivity.
  - unfold bdrat_output in E. apply bind_ret in E as (bs & Eb & E). inversion E; subst. cbn [mapM] in Eb.
    apply bind_ret in Eb as (x & Ex & Eb). apply bind_ret in Eb as (y & Ey & Eb). inversion Eb; subst. cbn [concat].
    destruct (bdrat_step_shape s) as (tg & bc & E1 & E2 & Et). rewrite Ex in E2. inversion E2; subst x. cbn [app read_bdrat]. rewrite <- !app_assoc. cbn [app].
    assert (R : forall z, read_clause (S (length (concat bc ++ 0%N :: z))) (concat bc ++ 0%N :: z) = Some (map dimacs (step_lits s), z)).
    { intro z. apply (read_clause_ok (step_lits s) bc z); auto. rewrite app_length. pose proof (write_lits_len _ _ E1). cbn [length]. lia. }
    rewrite R. rewrite (IH fuel (concat y) st tail t2); auto.
    unfold bdrat_output. rewrite Ey. reflexivity.
Qed.

(** *** Text *)
Lemma to_uint_head n u : N.to_uint n = Decimal.D0 u -> n = 0%N.
Proof.
  intro E. pose proof (DecimalN.Unsigned.to_of (N.to_uint n)) as H. rewrite DecimalN.Unsigned.of_to in H.
  rewrite E in H. unfold Decimal.unorm in H. cbn [Decimal.nzhead] in H.
  assert (NZ : forall d v, Decimal.nzhead d = Decimal.D0 v -> False).
  { induction d; cbn; intros v Q; try discriminate. eapply IHd; eauto. }
  destruct (Decimal.nzhead u) eqn:En; try discriminate.
  - assert (Q : N.to_uint n = Decimal.D0 Decimal.Nil) by congruence. rewrite <- (DecimalN.Unsigned.of_to n), Q. reflexivity.
  - exfalso. eapply NZ; eauto.
Qed.
Lemma read_digits_ge bs : forall acc m, read_digits bs acc = Some m -> (acc <= m)%N.
Proof.
  induction bs as [|b bs IH]; intros acc m H; cbn [read_digits] in H; [inversion H; lia|].
  destruct (_ && _); [|discriminate]. apply IH in H. lia.
Qed.
(** A nonempty prefix of a number is not read as zero. *)
Lemma number_cut z x y : z <> 0%Z -> ascii_digits z = x ++ y -> x <> [] -> is_token 100 x = false /\ read_int x <> Some 0%Z.
Proof.
  intros Hz E Hx.
  assert (D : forall u x' y', uint_bytes (N.to_uint (Z.abs_N z)) = x' ++ y' -> x' <> [] -> u = x' -> (forall b, In b x' -> digit b) /\ read_nat x' <> Some 0%N).
  { intros u x' y' Eu Hx' _. split; [intros b Hb; apply (uint_digits (N.to_uint (Z.abs_N z))); rewrite Eu; apply in_or_app; auto|].
    destruct x' as [|b x']; [contradiction|]. unfold read_nat. cbn [read_digits].
    assert (Hb : digit b) by (apply (uint_digits (N.to_uint (Z.abs_N z))); rewrite Eu; left; auto). unfold digit in Hb.
    destruct (N.leb_spec 48 b); [|lia]. destruct (N.leb_spec b 57); [|lia]. cbn [andb].
    intro Q. apply read_digits_ge in Q.
    assert (b = 48%N) by lia. subst b. cbn [app] in Eu.
    assert (Z0 : exists u', N.to_uint (Z.abs_N z) = Decimal.D0 u') by (destruct (N.to_uint (Z.abs_N z)); cbn in Eu; inversion Eu; eauto).
    destruct Z0 as (u' & Q'). apply to_uint_head in Q'. lia. }
  unfold ascii_digits in E. destruct (Z.ltb_spec z 0).
  - cbn [app] in E. destruct x as [|b x]; [contradiction|]. cbn [app] in E. inversion E; subst b. split; [destruct x; reflexivity|].
    cbn [read_int]. change (45 =? 45)%N with true. cbv iota. destruct x as [|b x]; [discriminate|].
    destruct (D _ (b :: x) y H2 ltac:(discriminate) eq_refl) as [_ Q]. destruct (read_nat (b :: x)) as [[|p]|]; cbn; congruence.
  - cbn [app] in E. destruct (D _ x y E Hx eq_refl) as [Q1 Q2]. split.
    + destruct x as [|b [|b' x]]; auto. cbn [is_token]. specialize (Q1 b (or_introl eq_refl)). unfold digit in Q1. destruct (N.eqb_spec b 100); [lia|auto].
    + unfold read_int. destruct x as [|b x]; [contradiction|]. specialize (Q1 b (or_introl eq_refl)). unfold digit in Q1.
      destruct (N.eqb_spec b 45); [lia|]. destruct (read_nat (b :: x)) as [[|p]|]; cbn; congruence.
Qed.
Lemma tokens_end w : (forall b, In b w -> is_space b = false) -> forall cur, tokens cur w = match cur ++ w with [] => [] | x => [x] end.
Proof.
  induction w as [|b w IH]; intros H cur; cbn [tokens]; [rewrite app_nil_r; destruct cur; reflexivity|].
  rewrite (H b (or_introl eq_refl)), IH by (intros; apply H; right; auto). rewrite <- app_assoc. reflexivity.
Qed.
Lemma text_cut c : forall del cur a b, drat_add_clause c = a ++ b -> b <> [] ->
  let r := read_drat (tokens [] a) del cur in
  r = None \/ (a = [] /\ cur = [] /\ del = false /\ r = Some []) \/ r = Some [if del then ZDel (cur ++ map dimacs c) else ZAdd (cur ++ map dimacs c)].
Proof.
  unfold drat_add_clause. induction c as [|l c IH]; intros del cur a b E Hb.
  - cbn [flat_map app] in E. destruct a as [|x [|y [|z a]]]; cbn [app] in E; inversion E; subst; try contradiction; cbn.
    + destruct cur; [destruct del|]; auto 10.
    + right; right. rewrite app_nil_r. destruct del; reflexivity.
  - cbn [flat_map] in E. rewrite <- !app_assoc in E. destruct (app_cut _ _ _ _ E) as [(t & Ed & Ht & _)|(t & -> & E')].
    + assert (NS : forall x, In x a -> is_space x = false) by (intros x Hx; apply (ascii_nospace (lit_dimacs l)); rewrite Ed; apply in_or_app; auto).
      rewrite (tokens_end a NS []). cbn [app]. destruct a as [|x a]; [cbn; destruct cur; [destruct del|]; auto 10|].
      destruct (number_cut (lit_dimacs l) (x :: a) t) as [N1 N2]; [rewrite lit_dimacs_spec; apply dimacs_nonzero|exact Ed|discriminate|].
      left. cbn [read_drat]. rewrite N1. destruct (read_int (x :: a)) as [z|]; auto. destruct (Z.eqb_spec z 0); [congruence|].
      cbn [read_drat]. destruct (cur ++ [z]) eqn:Q; [destruct cur; discriminate|auto].
    + destruct t as [|x t].
      { cbn [app] in E'. rewrite app_nil_r. pose proof (ascii_nospace (lit_dimacs l)) as NS. rewrite (tokens_end _ NS []). cbn [app].
        destruct (ascii_digits (lit_dimacs l)) as [|x w] eqn:Ea; [exfalso; eapply ascii_nonempty; eauto|]. rewrite <- Ea, lit_dimacs_spec, read_drat_lit.
        left. cbn [read_drat]. destruct (cur ++ [dimacs l]) eqn:Q; [destruct cur; discriminate|auto]. }
      cbn [app] in E'. inversion E'; subst x.
      rewrite (tokens_word0 (ascii_digits (lit_dimacs l)) t 32%N); [|intros; eapply ascii_nospace; eauto|reflexivity|apply ascii_nonempty].
      rewrite lit_dimacs_spec, read_drat_lit. cbv zeta.
      destruct (IH del (cur ++ [dimacs l]) t b) as [R|[(_ & R & _)|R]]; auto.
      * destruct cur; discriminate.
      * right; right. rewrite R, <- app_assoc. reflexivity.
Qed.
Lemma read_step s rest : read_drat (tokens [] (drat_step s ++ rest)) false [] =
  match read_drat (tokens [] rest) false [] with None => None | Some steps => Some (zs_of s :: steps) end.
Proof.
  destruct s; cbn [drat_step].
  - rewrite tokens_clause, read_drat_clause. reflexivity.
  - unfold drat_delete_clause. rewrite <- app_assoc. cbn [app].
    change (tokens [] (100%N :: 32%N :: drat_add_clause lits ++ rest)) with ([100%N] :: tokens [] (drat_add_clause lits ++ rest)).
    rewrite tokens_clause. cbn [read_drat]. rewrite read_drat_clause. reflexivity.
Qed.
Lemma drat_cut pre st tail t2 : drat_step st = tail ++ t2 -> t2 <> [] -> tail <> [] ->
  decode_drat (drat_output pre ++ tail) = None \/ decode_drat (drat_output pre ++ tail) = Some (map zs_of (pre ++ [st])).
Proof.
  intros Es H2 Ht. unfold decode_drat, drat_output. induction pre as [|s pre IH].
  - cbn [flat_map app map]. destruct st as [c|c]; cbn [drat_step] in Es.
    + destruct (text_cut c false [] tail t2 Es H2) as [R|[(R & _)|R]]; auto. contradiction.
    + unfold drat_delete_clause in Es. destruct tail as [|x [|y t]]; cbn [app] in Es; [contradiction|injection Es as <- _; left; reflexivity|]. injection Es as <- <- Es.
      change (tokens [] (100%N :: 32%N :: t)) with ([100%N] :: tokens [] t). cbn [read_drat]. change (is_token 100 [100%N]) with true. cbv iota.
      destruct (text_cut c true [] t t2 Es H2) as [R|[(_ & _ & R & _)|R]]; auto. discriminate.
  - cbn [flat_map app map]. rewrite <- app_assoc, read_step. destruct IH as [-> | ->]; auto.
Qed.
