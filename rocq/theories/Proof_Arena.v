(** The clause arena: the buffer as a sequence of blocks. *)
From Coq Require Import NArith List Bool Arith Lia ZifyN ZifyNat ZifyBool.
From Verif Require Import Model_Base Model_Lit Model_Header Model_Arena Spec Drivers_Arena Proof_Base Proof_Header.
Import ListNotations.


Lemma clear_marker w : clear w -> has_marker w = false.
Proof.
  intro H. unfold has_marker. apply negb_false_iff, N.eqb_eq. apply N.bits_inj. intro i.
  rewrite N.land_spec, N.bits_0. change LEN_MARKER with (N.shiftl 1 31).
  rewrite shiftl_bit. destruct (N.leb_spec 31 i); simpl; [|apply andb_false_r].
  rewrite (testbit_high w 31) by (auto; change (2^31)%N with 2147483648%N; exact H). reflexivity.
Qed.

Definition mark (n : nat) : N := N.lor (N.of_nat n) LEN_MARKER.

Lemma mark_add n : clear (N.of_nat n) -> mark n = (N.of_nat n + 2147483648)%N.
Proof.
  intro H. unfold mark. rewrite N.lor_comm. change LEN_MARKER with (1 * 2 ^ 31)%N.
  rewrite lor_disjoint by exact H. lia.
Qed.

Lemma mark_lor n : N.lor LEN_MARKER (N.of_nat n) = mark n.
Proof. apply N.lor_comm. Qed.

Lemma mark_marker n : has_marker (mark n) = true.
Proof.
  unfold has_marker, mark. apply negb_true_iff, N.eqb_neq. intro E.
  assert (B : N.testbit (N.land (N.lor (N.of_nat n) LEN_MARKER) LEN_MARKER) 31 = false) by (rewrite E; apply N.bits_0).
  rewrite N.land_spec, N.lor_spec in B. change (N.testbit LEN_MARKER 31) with true in B.
  rewrite orb_true_r in B. discriminate.
Qed.

Lemma mark_len n : clear (N.of_nat n) -> N.to_nat (N.land (mark n) HEADER_MASK) = n.
Proof.
  intro H. rewrite mark_add by auto. change HEADER_MASK with (N.ones 31).
  rewrite N.land_ones. change (2 ^ 31)%N with 2147483648%N. unfold clear in H.
  replace (N.of_nat n + 2147483648)%N with (N.of_nat n + 1 * 2147483648)%N by lia.
  rewrite N.mod_add by lia. rewrite N.mod_small by auto. lia.
Qed.

Lemma mark_zero n : clear (N.of_nat n) -> (mark n =? LEN_MARKER)%N = Nat.eqb n 0.
Proof.
  intro H. rewrite mark_add by auto. change LEN_MARKER with 2147483648%N.
  destruct (Nat.eqb_spec n 0); [subst; reflexivity|]. apply N.eqb_neq. lia.
Qed.

(** ** Raw words *)

Lemma write_words_app P M ws S : length M = length ws ->
  write_words (P ++ M ++ S) (length P) ws = P ++ ws ++ S.
Proof.
  revert P M; induction ws as [|w ws IH]; intros P M H.
  - destruct M; [|discriminate]. reflexivity.
  - destruct M as [|m M]; [discriminate|]. injection H as H. simpl.
    replace (upd (P ++ m :: M ++ S) (length P) w) with ((P ++ [w]) ++ M ++ S).
    + replace (Datatypes.S (length P)) with (length (P ++ [w])) by (rewrite app_length; simpl; lia).
      rewrite IH by auto. rewrite <- app_assoc. reflexivity.
    + rewrite <- app_assoc. simpl. clear. induction P; simpl; auto. rewrite IHP. auto.
Qed.

Lemma read_words_app P M S n pos : n = length M -> pos = length P ->
  read_words (P ++ M ++ S) pos n = Ret M.
Proof.
  intros -> ->. unfold read_words. rewrite !app_length.
  destruct (Nat.leb_spec (length P + length M) (length P + (length M + length S))); [|lia].
  f_equal. rewrite skipn_app, skipn_all, Nat.sub_diag. simpl.
  rewrite firstn_app, firstn_all, Nat.sub_diag. simpl. apply app_nil_r.
Qed.

Lemma write_words_length ws : forall buf pos, length (write_words buf pos ws) = length buf.
Proof. induction ws; intros; simpl; auto. rewrite IHws. apply upd_length. Qed.

(** ** Blocks *)

Section Arena.
Variable HL : nat.

Record blk := mkB { b_hdr : list N; b_lits : list N; b_pad : list N }.

Definition bwords (b : blk) : list N := b_hdr b ++ mark (length (b_lits b)) :: b_lits b ++ b_pad b.

Record bok (b : blk) : Prop := {
  bo_hdr : length (b_hdr b) = HL;
  bo_hdr_clear : Forall clear (b_hdr b);
  bo_lits_clear : Forall clear (b_lits b);
  bo_pad_clear : Forall clear (b_pad b);
  bo_len : clear (N.of_nat (length (b_lits b)));
  bo_dead : b_lits b = [] -> exists n p', b_pad b = n :: p' /\ N.to_nat n <= length (b_pad b)
}.

Definition bsize (b : blk) : nat := HL + 1 + length (b_lits b) + length (b_pad b).
Definition buf (bs : list blk) : list N := concat (map bwords bs).

Fixpoint ents (o : nat) (bs : list blk) : list entry :=
  match bs with
  | [] => []
  | b :: r => (o, b_hdr b, b_lits b) :: ents (o + bsize b) r
  end.

(** The arena holds the clauses [es] (position, header, literals), deleted ones
    with no literals. *)
Definition Brep (a : arena) (bs : list blk) : Prop :=
  a_buffer a = buf bs /\ Forall bok bs.
Definition Arep (a : arena) (es : list entry) : Prop :=
  exists bs, Brep a bs /\ es = ents 0 bs.


Lemma bwords_len b : bok b -> length (bwords b) = bsize b.
Proof. intro H. unfold bwords, bsize. rewrite app_length. simpl. rewrite app_length, (bo_hdr b H). lia. Qed.

Lemma buf_app bs1 bs2 : buf (bs1 ++ bs2) = buf bs1 ++ buf bs2.
Proof. unfold buf. rewrite map_app, concat_app. reflexivity. Qed.
Lemma buf_cons b bs : buf (b :: bs) = bwords b ++ buf bs.
Proof. reflexivity. Qed.

Lemma ents_app o bs1 bs2 : Forall bok bs1 ->
  ents o (bs1 ++ bs2) = ents o bs1 ++ ents (o + length (buf bs1)) bs2.
Proof.
  intro H. revert o; induction H as [|b bs Hb H IH]; intro o.
  - simpl. rewrite Nat.add_0_r. reflexivity.
  - cbn [app ents]. rewrite IH. rewrite buf_cons, app_length, bwords_len by auto.
    cbn [app]. rewrite Nat.add_assoc. reflexivity.
Qed.

Lemma ents_in o bs c h l : Forall bok bs -> In (c, h, l) (ents o bs) ->
  exists bs1 b bs2, bs = bs1 ++ b :: bs2 /\ c = o + length (buf bs1) /\ h = b_hdr b /\ l = b_lits b.
Proof.
  intro H. revert o; induction H as [|b bs Hb H IH]; intros o Hin; [contradiction|].
  cbn [ents] in Hin. destruct Hin as [E|Hin].
  - inv E. exists [], b, bs. simpl. repeat split; auto; lia.
  - destruct (IH _ Hin) as (bs1 & b' & bs2 & -> & -> & -> & ->).
    exists (b :: bs1), b', bs2. split; auto. split; auto.
    rewrite buf_cons, app_length, bwords_len by auto. lia.
Qed.

Lemma ents_bounds o bs : Forall bok bs -> forall e, In e (ents o bs) ->
  o <= e_ref e /\ e_ref e + HL + 1 + length (e_lits e) <= o + length (buf bs).
Proof.
  intros H [[c h] l] Hin. destruct (ents_in o bs c h l H Hin) as (bs1 & b & bs2 & -> & -> & -> & ->).
  unfold e_ref, e_lits; simpl. rewrite buf_app, buf_cons, !app_length.
  apply Forall_app in H as [_ H]. inv H. rewrite bwords_len by auto. unfold bsize. lia.
Qed.

Lemma ents_nodup o bs : Forall bok bs -> NoDup (map e_ref (ents o bs)).
Proof.
  intro H. revert o; induction H as [|b bs Hb H IH]; intro o; simpl; constructor; auto.
  intro Hin. apply in_map_iff in Hin as (e & Ee & He).
  apply (ents_bounds _ _ H) in He. unfold bsize in He. unfold e_ref in *. simpl in *. lia.
Qed.

(** Splitting the buffer at a block. *)
Lemma brep_split a bs1 b bs2 : Brep a (bs1 ++ b :: bs2) ->
  a_buffer a = buf bs1 ++ b_hdr b ++ [mark (length (b_lits b))] ++ b_lits b ++ b_pad b ++ buf bs2 /\
  bok b /\ Forall bok bs1 /\ Forall bok bs2.
Proof.
  intros [E H]. apply Forall_app in H as [H1 H]. inv H. split; auto.
  rewrite E, buf_app, buf_cons. unfold bwords. rewrite <- !app_assoc. simpl. rewrite <- app_assoc. reflexivity.
Qed.

Lemma nth_mid_app {A} (P : list A) x S pos : pos = length P -> nth_error (P ++ x :: S) pos = Some x.
Proof. intros ->. rewrite nth_error_app2, Nat.sub_diag by lia. reflexivity. Qed.

Lemma clause_len_block a bs1 b bs2 : Brep a (bs1 ++ b :: bs2) ->
  clause_len HL a (length (buf bs1)) = Ret (length (b_lits b)).
Proof.
  intro H. apply brep_split in H as (E & Hb & _ & _). unfold clause_len. rewrite E.
  rewrite app_assoc.
  rewrite (proj2 (vget_ok _ _ (mark (length (b_lits b))))).
  - cbn [bind]. rewrite mark_marker, mark_len by apply (bo_len b Hb). reflexivity.
  - apply nth_mid_app. rewrite app_length, (bo_hdr b Hb). reflexivity.
Qed.

Lemma lits_block a bs1 b bs2 : Brep a (bs1 ++ b :: bs2) ->
  arena_lits HL a (length (buf bs1)) = Ret (b_lits b).
Proof.
  intro H. unfold arena_lits. rewrite (clause_len_block _ _ _ _ H). cbn [bind].
  apply brep_split in H as (E & Hb & _ & _). rewrite E.
  rewrite (app_assoc (buf bs1)), (app_assoc (buf bs1 ++ b_hdr b)).
  apply read_words_app; auto. rewrite !app_length, (bo_hdr b Hb). simpl. lia.
Qed.

Lemma header_block a bs1 b bs2 : Brep a (bs1 ++ b :: bs2) ->
  arena_header HL a (length (buf bs1)) = Ret (b_hdr b).
Proof.
  intro H. unfold arena_header. rewrite (clause_len_block _ _ _ _ H). cbn [bind].
  apply brep_split in H as (E & Hb & _ & _). rewrite E.
  apply read_words_app; auto. rewrite (bo_hdr b Hb). auto.
Qed.

Lemma brep_update a bs1 b b' bs2 g : Brep a (bs1 ++ b :: bs2) -> bok b' ->
  Brep (mkArena (buf bs1 ++ b_hdr b' ++ [mark (length (b_lits b'))] ++ b_lits b' ++ b_pad b' ++ buf bs2) g)
    (bs1 ++ b' :: bs2).
Proof.
  intros H Hb'. apply brep_split in H as (E & Hb & H1 & H2). split.
  - cbn [a_buffer]. rewrite buf_app, buf_cons. unfold bwords. rewrite <- !app_assoc. simpl. rewrite <- app_assoc. reflexivity.
  - apply Forall_app. auto.
Qed.

Lemma set_header_block a bs1 b bs2 h : Brep a (bs1 ++ b :: bs2) ->
  length h = HL -> Forall clear h ->
  exists a', arena_set_header HL a (length (buf bs1)) h = Ret a' /\
    Brep a' (bs1 ++ mkB h (b_lits b) (b_pad b) :: bs2) /\ a_garbage a' = a_garbage a.
Proof.
  intros H Hh Hc. unfold arena_set_header. rewrite (clause_len_block _ _ _ _ H). cbn [bind].
  eexists. split; [reflexivity|].
  pose proof (brep_split _ _ _ _ H) as (E & Hb & _ & _). split; auto. rewrite E, write_words_app.
  - apply (brep_update a bs1 b (mkB h (b_lits b) (b_pad b)) bs2 (a_garbage a) H).
    split; simpl; auto; apply Hb.
  - rewrite (bo_hdr b Hb). auto.
Qed.

Lemma set_lits_block a bs1 b bs2 l : Brep a (bs1 ++ b :: bs2) ->
  length l = length (b_lits b) -> Forall clear l ->
  exists a', arena_set_lits HL a (length (buf bs1)) l = Ret a' /\
    Brep a' (bs1 ++ mkB (b_hdr b) l (b_pad b) :: bs2) /\ a_garbage a' = a_garbage a.
Proof.
  intros H Hl Hc. unfold arena_set_lits. rewrite (clause_len_block _ _ _ _ H). cbn [bind].
  rewrite Hl, Nat.eqb_refl. eexists. split; [reflexivity|].
  pose proof (brep_split _ _ _ _ H) as (E & Hb & _ & _). split; auto. rewrite E.
  pose proof (brep_update a bs1 b (mkB (b_hdr b) l (b_pad b)) bs2 (a_garbage a) H) as G. cbn [b_hdr b_lits b_pad] in G.
  rewrite Hl in G. rewrite (app_assoc (buf bs1)), (app_assoc (buf bs1 ++ b_hdr b)).
  replace (length (buf bs1) + HL + 1) with (length ((buf bs1 ++ b_hdr b) ++ [mark (length (b_lits b))]))
    by (rewrite !app_length, (bo_hdr b Hb); simpl; lia).
  rewrite write_words_app by auto. rewrite <- !app_assoc. apply G.
  split; simpl; auto; try apply Hb.
  - rewrite Hl. apply Hb.
  - intros ->. simpl in Hl. apply (bo_dead b Hb). destruct (b_lits b); auto. discriminate.
Qed.

Lemma delete_block a bs1 b bs2 : Brep a (bs1 ++ b :: bs2) -> b_lits b <> [] ->
  exists a' p, arena_delete_clause HL a (length (buf bs1)) = Ret a' /\
    Brep a' (bs1 ++ mkB (b_hdr b) [] p :: bs2) /\
    length p = length (b_lits b) + length (b_pad b) /\
    a_garbage a' = a_garbage a + (length (b_lits b) + HL + 1).
Proof.
  intros H Hne. unfold arena_delete_clause. rewrite (clause_len_block _ _ _ _ H). cbn [bind].
  pose proof (brep_split _ _ _ _ H) as (E & Hb & _ & _).
  destruct (b_lits b) as [|x r] eqn:El; [congruence|].
  destruct (Nat.ltb_spec 0 (length (x :: r))); [|simpl in *; lia].
  pose proof (bo_len b Hb) as HL1. rewrite El in HL1. unfold clear in HL1.
  set (n := length (x :: r)) in *.
  exists (mkArena (write_words (a_buffer a) (length (buf bs1) + HL) [LEN_MARKER; to_u32 (N.of_nat n)])
            (a_garbage a + (n + HL + 1))), (N.of_nat n :: r ++ b_pad b).
  split; [reflexivity|]. split; [|split].
  - rewrite E. rewrite (to_u32_small (N.of_nat n)) by lia.
    replace (length (buf bs1) + HL) with (length (buf bs1 ++ b_hdr b)) by (rewrite app_length, (bo_hdr b Hb); auto).
    replace (buf bs1 ++ b_hdr b ++ [mark n] ++ (x :: r) ++ b_pad b ++ buf bs2)
      with ((buf bs1 ++ b_hdr b) ++ [mark n; x] ++ r ++ b_pad b ++ buf bs2)
      by (rewrite <- !app_assoc; reflexivity).
    rewrite write_words_app by auto. rewrite <- !app_assoc.
    pose proof (brep_update a bs1 b (mkB (b_hdr b) [] (N.of_nat n :: r ++ b_pad b)) bs2
       (a_garbage a + (n + HL + 1)) H) as G. cbn [b_hdr b_lits b_pad length] in G.
    change (mark 0) with LEN_MARKER in G. simpl in G. rewrite <- app_assoc in G. apply G.
    pose proof (bo_lits_clear b Hb) as C1. rewrite El in C1. inv C1.
    split; simpl; auto; try apply Hb.
    + constructor; [exact HL1|]. apply Forall_app. split; auto. apply Hb.
    + reflexivity.
    + intros _. exists (N.of_nat n), (r ++ b_pad b). split; auto.
      rewrite Nat2N.id, app_length. unfold n. simpl. lia.
  - simpl. rewrite app_length. unfold n. simpl. lia.
  - simpl. lia.
Qed.

(** Deleting an already deleted clause only changes the garbage counter. *)
Lemma delete_dead a bs1 b bs2 : Brep a (bs1 ++ b :: bs2) -> b_lits b = [] ->
  exists a', arena_delete_clause HL a (length (buf bs1)) = Ret a' /\
    Brep a' (bs1 ++ b :: bs2) /\ a_garbage a' = a_garbage a + (HL + 1).
Proof.
  intros H E0. unfold arena_delete_clause. rewrite (clause_len_block _ _ _ _ H), E0. cbn [bind length].
  simpl. eexists. split; [reflexivity|]. split; auto.
Qed.

Lemma shrink_block hook a bs1 b bs2 n : Brep a (bs1 ++ b :: bs2) ->
  1 <= n <= length (b_lits b) ->
  (forall h o k, length h = HL -> Forall clear h -> length (hook h o k) = HL /\ Forall clear (hook h o k)) ->
  exists a' p, arena_shrink_clause HL hook a (length (buf bs1)) n = Ret a' /\
    Brep a' (bs1 ++ mkB (hook (b_hdr b) (length (b_lits b)) n) (firstn n (b_lits b)) p :: bs2) /\
    n + length p = length (b_lits b) + length (b_pad b) /\
    a_garbage a' = a_garbage a + (length (b_lits b) - n).
Proof.
  intros H Hn Hhook. unfold arena_shrink_clause.
  destruct (Nat.eqb_spec n 0); [lia|]. cbn [negb]. rewrite (clause_len_block _ _ _ _ H). cbn [bind].
  destruct (Nat.leb_spec n (length (b_lits b))); [|lia].
  pose proof (brep_split _ _ _ _ H) as (E & Hb & _ & _). pose proof (bo_len b Hb) as HL1. unfold clear in HL1.
  cbn [a_buffer a_garbage]. rewrite E. rewrite (to_u32_small (N.of_nat n)) by lia. rewrite mark_lor.
  assert (W : write_words (buf bs1 ++ b_hdr b ++ [mark (length (b_lits b))] ++ b_lits b ++ b_pad b ++ buf bs2)
      (length (buf bs1) + HL) [mark n] =
      buf bs1 ++ b_hdr b ++ [mark n] ++ b_lits b ++ b_pad b ++ buf bs2).
  { rewrite app_assoc.
    replace (length (buf bs1) + HL) with (length (buf bs1 ++ b_hdr b)) by (rewrite app_length, (bo_hdr b Hb); auto).
    rewrite write_words_app by auto. rewrite <- app_assoc. reflexivity. }
  rewrite W, (read_words_app (buf bs1) (b_hdr b)) by (auto; rewrite (bo_hdr b Hb); auto). cbn [bind].
  destruct (Hhook (b_hdr b) (length (b_lits b)) n (bo_hdr b Hb) (bo_hdr_clear b Hb)) as [Hk1 Hk2].
  rewrite write_words_app by (rewrite (bo_hdr b Hb); auto).
  exists (mkArena (buf bs1 ++ hook (b_hdr b) (length (b_lits b)) n ++ [mark n] ++ b_lits b ++ b_pad b ++ buf bs2)
            (a_garbage a + (length (b_lits b) - n))), (skipn n (b_lits b) ++ b_pad b).
  split; [reflexivity|].
  assert (Lf : length (firstn n (b_lits b)) = n) by (rewrite firstn_length; lia).
  split; [|split].
  - pose proof (brep_update a bs1 b (mkB (hook (b_hdr b) (length (b_lits b)) n) (firstn n (b_lits b))
       (skipn n (b_lits b) ++ b_pad b)) bs2 (a_garbage a + (length (b_lits b) - n)) H) as G.
    cbn [b_hdr b_lits b_pad] in G. rewrite Lf in G.
    rewrite <- (firstn_skipn n (b_lits b)) at 2. rewrite <- !app_assoc. rewrite <- !app_assoc in G. apply G.
    pose proof (bo_lits_clear b Hb) as C. rewrite <- (firstn_skipn n (b_lits b)) in C. apply Forall_app in C as [C1 C2].
    split; simpl; auto.
    + apply Forall_app. split; auto. apply Hb.
    + rewrite Lf. unfold clear. lia.
    + intro E0. rewrite E0 in Lf. simpl in Lf. lia.
  - rewrite app_length, skipn_length. lia.
  - reflexivity.
Qed.

Lemma add_block a bs h l : Brep a bs -> length h = HL -> Forall clear h -> Forall clear l -> l <> [] ->
  (N.of_nat (length (a_buffer a)) <= LITIDX_MAX)%N -> (N.of_nat (length l) <= HEADER_MASK)%N ->
  exists a', arena_add_clause a h l = Ret (Some (length (buf bs)), a') /\
    Brep a' (bs ++ [mkB h l []]) /\ a_garbage a' = a_garbage a.
Proof.
  intros [E H] Hh Hc Hl Hne H1 H2. unfold arena_add_clause.
  destruct (Nat.eqb_spec (length l) 0); [destruct l; simpl in *; congruence|]. cbn [negb].
  destruct (N.ltb_spec LITIDX_MAX (N.of_nat (length (a_buffer a)))); [lia|].
  destruct (N.ltb_spec HEADER_MASK (N.of_nat (length l))); [lia|]. cbn [orb].
  eexists. split; [rewrite E; reflexivity|]. split; auto. split.
  - cbn [a_buffer]. rewrite buf_app, buf_cons. unfold bwords. simpl. rewrite !app_nil_r.
    reflexivity.
  - apply Forall_app. split; auto. constructor; auto. split; simpl; auto.
    + unfold clear. change HEADER_MASK with 2147483647%N in *. lia.
    + congruence.
Qed.

(** ** Iteration *)

Fixpoint first_live (o : nat) (bs : list blk) : option cref :=
  match bs with
  | [] => None
  | b :: r => match b_lits b with [] => first_live (o + bsize b) r | _ => Some o end
  end.

Lemma find_ok fuel : forall P q bs pos, Forall clear q -> Forall bok bs ->
  length P <= pos -> pos <= length P + length q + HL ->
  length (P ++ q ++ buf bs) - pos < fuel ->
  find_clause_loop HL fuel (P ++ q ++ buf bs) pos = Ret (first_live (length P + length q) bs).
Proof.
  induction fuel; intros P q bs pos Hq Hbs Hp1 Hp2 Hf; [lia|]. cbn [find_clause_loop].
  destruct (Nat.lt_ge_cases pos (length P + length q)) as [Hin|Hout].
  - (* in the padding *)
    destruct (nth_error (P ++ q ++ buf bs) pos) as [w|] eqn:Ew.
    2:{ apply nth_error_None in Ew. rewrite !app_length in Ew. lia. }
    assert (Cw : clear w).
    { rewrite nth_error_app2 in Ew by lia. rewrite nth_error_app1 in Ew by lia.
      eapply Forall_forall; [exact Hq|]. eapply nth_error_In; eauto. }
    rewrite (clear_marker w Cw). apply IHfuel; auto; try lia.
    assert (pos < length (P ++ q ++ buf bs)) by (apply nth_error_Some; congruence). lia.
  - destruct bs as [|b bs].
    { rewrite (proj2 (nth_error_None _ _)); [reflexivity|]. unfold buf; simpl.
      rewrite !app_length. simpl. lia. }
    inv Hbs. rename H1 into Hb, H2 into Hbs.
    assert (EB : P ++ q ++ buf (b :: bs) = (P ++ q ++ b_hdr b) ++ mark (length (b_lits b)) :: (b_lits b ++ b_pad b) ++ buf bs).
    { rewrite buf_cons. unfold bwords. rewrite <- !app_assoc. simpl. rewrite <- !app_assoc. reflexivity. }
    assert (Lh : length (P ++ q ++ b_hdr b) = length P + length q + HL) by (rewrite !app_length, (bo_hdr b Hb); lia).
    destruct (Nat.eq_dec pos (length P + length q + HL)) as [->|Hne].
    + assert (Ew : nth_error (P ++ q ++ buf (b :: bs)) (length P + length q + HL) = Some (mark (length (b_lits b)))).
      { rewrite EB. apply nth_mid_app. auto. }
      rewrite Ew, mark_marker, mark_zero by apply (bo_len b Hb). cbn [first_live].
      destruct (b_lits b) as [|x r] eqn:El; cbn [length Nat.eqb].
      * destruct (bo_dead b Hb El) as (n & p' & Ep & Hn).
        rewrite (proj2 (vget_ok _ _ n)).
        2:{ rewrite EB, Ep. cbn [app].
            change (?x :: ?y :: ?z) with ([x] ++ y :: z). rewrite app_assoc.
            apply nth_mid_app. rewrite app_length, Lh. reflexivity. }
        cbn [bind]. rewrite EB. cbn [app].
        replace ((P ++ q ++ b_hdr b) ++ mark (length (@nil N)) :: b_pad b ++ buf bs)
          with ((P ++ q ++ b_hdr b ++ [mark (length (@nil N))]) ++ b_pad b ++ buf bs)
          by (rewrite <- !app_assoc; reflexivity).
        assert (LP : length (P ++ q ++ b_hdr b ++ [mark (length (@nil N))]) = length P + length q + HL + 1)
          by (rewrite !app_length, (bo_hdr b Hb); simpl; lia).
        rewrite IHfuel; auto; try lia.
        -- f_equal. f_equal. rewrite LP. unfold bsize. rewrite El. simpl. lia.
        -- apply Hb.
        -- rewrite EB in Hf. rewrite !app_length in *. simpl in *. rewrite !app_length in *. lia.
      * cbn [Nat.eqb]. do 2 f_equal. lia.
    + (* in the header *)
      destruct (nth_error (P ++ q ++ buf (b :: bs)) pos) as [w|] eqn:Ew.
      2:{ apply nth_error_None in Ew. rewrite EB, app_length, Lh in Ew. lia. }
      assert (Cw : clear w).
      { rewrite EB in Ew. rewrite nth_error_app1 in Ew by lia.
        rewrite nth_error_app2 in Ew by lia. rewrite nth_error_app2 in Ew by lia.
        eapply Forall_forall; [apply Hb|]. eapply nth_error_In; eauto. }
      rewrite (clear_marker w Cw). apply IHfuel; auto; try lia.
      assert (pos < length (P ++ q ++ buf (b :: bs))) by (apply nth_error_Some; congruence). lia.
Qed.

Lemma next_none a bs : Brep a bs -> next_clause HL a None = Ret (first_live 0 bs).
Proof.
  intros [E H]. unfold next_clause. cbn [bind]. unfold find_clause. rewrite E.
  apply (find_ok _ [] [] bs); simpl; auto; try lia.
Qed.

(** Next clause after a block, whatever precedes the block. *)
Lemma next_suffix P b bs g : bok b -> Forall bok bs ->
  next_clause HL (mkArena (P ++ bwords b ++ buf bs) g) (Some (length P)) =
  Ret (first_live (length P + bsize b) bs).
Proof.
  intros Hb Hbs. unfold next_clause, clause_len. cbn [a_buffer].
  assert (EB : P ++ bwords b ++ buf bs = (P ++ b_hdr b) ++ mark (length (b_lits b)) :: (b_lits b ++ b_pad b) ++ buf bs).
  { unfold bwords. rewrite <- !app_assoc. simpl. rewrite <- !app_assoc. reflexivity. }
  rewrite (proj2 (vget_ok _ _ (mark (length (b_lits b))))).
  2:{ rewrite EB. apply nth_mid_app. rewrite app_length, (bo_hdr b Hb). auto. }
  cbn [bind]. rewrite mark_marker, mark_len by apply (bo_len b Hb). cbn [bind].
  unfold find_clause. cbn [a_buffer].
  assert (EQ : P ++ bwords b ++ buf bs = (P ++ b_hdr b ++ mark (length (b_lits b)) :: b_lits b) ++ b_pad b ++ buf bs).
  { unfold bwords. rewrite <- !app_assoc. simpl. rewrite <- !app_assoc. reflexivity. }
  assert (LP : length (P ++ b_hdr b ++ mark (length (b_lits b)) :: b_lits b) = length P + HL + 1 + length (b_lits b)).
  { rewrite !app_length. simpl. rewrite (bo_hdr b Hb). lia. }
  rewrite EQ. rewrite find_ok; auto; try lia.
  - f_equal. f_equal. rewrite LP. unfold bsize. lia.
  - apply Hb.
Qed.

Lemma next_some a bs1 b bs2 : Brep a (bs1 ++ b :: bs2) ->
  next_clause HL a (Some (length (buf bs1))) = Ret (first_live (length (buf bs1) + bsize b) bs2).
Proof.
  intros [E H]. apply Forall_app in H as [H1 H2]. inv H2. destruct a as [w g]. cbn [a_buffer] in E. subst w.
  rewrite buf_app, buf_cons. apply next_suffix; auto.
Qed.

Fixpoint first_live_e (es : list entry) : option cref :=
  match es with
  | [] => None
  | e :: r => if e_live e then Some (e_ref e) else first_live_e r
  end.

Lemma first_live_ents o bs : first_live o bs = first_live_e (ents o bs).
Proof.
  revert o; induction bs as [|b bs IH]; intro o; simpl; auto.
  unfold e_live, e_lits, e_ref. simpl. destruct (b_lits b); auto.
Qed.

(** ** Markers *)

Lemma marker_pos bs : Forall bok bs -> forall p w, nth_error (buf bs) p = Some w -> has_marker w = true ->
  exists bs1 b bs2, bs = bs1 ++ b :: bs2 /\ p = length (buf bs1) + HL.
Proof.
  induction 1 as [|b bs Hb H IH]; intros p w E Hw.
  - destruct p; discriminate.
  - rewrite buf_cons in E. destruct (Nat.lt_ge_cases p (length (bwords b))).
    + rewrite nth_error_app1 in E by auto. exists [], b, bs. split; auto. simpl.
      unfold bwords in E. destruct (Nat.lt_ge_cases p HL).
      * rewrite nth_error_app1 in E by (rewrite (bo_hdr b Hb); auto).
        apply nth_error_In in E. pose proof (proj1 (Forall_forall _ _) (bo_hdr_clear b Hb) _ E) as C.
        rewrite (clear_marker _ C) in Hw. discriminate.
      * rewrite nth_error_app2 in E by (rewrite (bo_hdr b Hb); auto). rewrite (bo_hdr b Hb) in E.
        destruct (p - HL) as [|k] eqn:Ek; [lia|]. simpl in E. apply nth_error_In in E.
        assert (C : clear w).
        { apply in_app_iff in E as [E|E].
          - exact (proj1 (Forall_forall _ _) (bo_lits_clear b Hb) _ E).
          - exact (proj1 (Forall_forall _ _) (bo_pad_clear b Hb) _ E). }
        rewrite (clear_marker _ C) in Hw. discriminate.
    + rewrite nth_error_app2 in E by auto. destruct (IH _ _ E Hw) as (bs1 & b' & bs2 & -> & Hp).
      exists (b :: bs1), b', bs2. split; auto. rewrite buf_cons, app_length. lia.
Qed.

Lemma clause_len_invalid a bs c : Brep a bs ->
  (forall bs1 b bs2, bs = bs1 ++ b :: bs2 -> c <> length (buf bs1)) ->
  exists p, clause_len HL a c = Panic p.
Proof.
  intros [E H] Hc. unfold clause_len. rewrite E. unfold vget.
  destruct (nth_error (buf bs) (c + HL)) as [w|] eqn:Ew; [|simpl; eauto]. cbn [bind].
  destruct (has_marker w) eqn:Em; [|eauto].
  destruct (marker_pos bs H _ _ Ew Em) as (bs1 & b & bs2 & -> & Hp).
  exfalso. apply (Hc bs1 b bs2 eq_refl). lia.
Qed.

End Arena.
Arguments b_hdr b : rename.
