(** Garbage collection of the arena. *)
From Coq Require Import NArith List Bool Arith Lia ZifyN ZifyNat ZifyBool.
From Verif Require Import Model_Base Model_Lit Model_Header Model_Arena Spec Drivers_Arena Proof_Base Proof_Header Proof_Arena.
Import ListNotations.

(** ** Gaps *)

(** [lives]: positions and sizes of the live clauses. *)
Fixpoint gapl (exp wo : nat) (lives : list (nat * nat)) : list gap * nat :=
  match lives with
  | [] => ([], exp)
  | (c, s) :: r =>
      let '(G, e) := gapl (c + s) (wo + s) r in
      ((if negb (Nat.eqb c exp) then [mkGap exp c (c - wo)] else []) ++ G, e)
  end.

Fixpoint sizes (lives : list (nat * nat)) : nat :=
  match lives with [] => 0 | (_, s) :: r => s + sizes r end.

Definition gaps_of (exp wo : nat) (lives : list (nat * nat)) (total : nat) : list gap :=
  let '(G, e) := gapl exp wo lives in
  if negb (Nat.eqb total e) then G ++ [mkGap e total (total - (wo + sizes lives))] else G.

Lemma gaps_of_nil exp wo total :
  gaps_of exp wo [] total = if negb (Nat.eqb total exp) then [mkGap exp total (total - wo)] else [].
Proof. unfold gaps_of. simpl. rewrite Nat.add_0_r. reflexivity. Qed.

Lemma gaps_of_cons exp wo c s r total :
  gaps_of exp wo ((c, s) :: r) total =
  (if negb (Nat.eqb c exp) then [mkGap exp c (c - wo)] else []) ++ gaps_of (c + s) (wo + s) r total.
Proof.
  unfold gaps_of. simpl. destruct (gapl (c + s) (wo + s) r) as [G e].
  rewrite Nat.add_assoc. destruct (negb (total =? e)); auto. rewrite app_assoc. reflexivity.
Qed.

Fixpoint chain (exp : nat) (lives : list (nat * nat)) (total : nat) : Prop :=
  match lives with
  | [] => exp <= total
  | (c, s) :: r => exp <= c /\ 0 < s /\ chain (c + s) r total
  end.

Lemma chain_le exp lives total : chain exp lives total -> exp <= total.
Proof.
  revert exp; induction lives as [|[c s] r IH]; intros exp H; simpl in *; auto.
  destruct H as (H1 & H2 & H3). apply IH in H3. lia.
Qed.

Lemma gaps_start exp wo lives total g : chain exp lives total ->
  In g (gaps_of exp wo lives total) -> exp <= g_start g.
Proof.
  revert exp wo; induction lives as [|[c s] r IH]; intros exp wo H Hin.
  - rewrite gaps_of_nil in Hin. destruct (negb (total =? exp)); [|contradiction].
    destruct Hin as [<-|[]]. simpl. lia.
  - rewrite gaps_of_cons in Hin. destruct H as (H1 & H2 & H3). apply in_app_iff in Hin as [Hin|Hin].
    + destruct (negb (c =? exp)); [|contradiction]. destruct Hin as [<-|[]]. simpl. lia.
    + apply IH in Hin; auto. lia.
Qed.

Lemma gc_find_stop G x prev : (forall g, In g G -> x < g_start g) -> gc_find G x prev = prev.
Proof.
  destruct G as [|g G]; auto. intro H. simpl. specialize (H g (or_introl eq_refl)).
  destruct (Nat.leb_spec (g_start g) x); auto; lia.
Qed.

Definition upd_with (o : option gap) (c : cref) : res (option cref) :=
  match o with
  | Some g =>
      if Nat.ltb c (g_end g) then Ret None
      else if Nat.leb (g_shift g) c then Ret (Some (c - g_shift g)) else Panic PArith
  | None => Ret (Some c)
  end.

Lemma gc_update_with gaps c : gc_update gaps c = upd_with (gc_find gaps c None) c.
Proof. reflexivity. Qed.

Definition prev_ok (prev : option gap) (exp wo : nat) : Prop :=
  wo <= exp /\
  match prev with
  | None => exp = wo
  | Some g => g_end g <= exp /\ g_shift g = exp - wo
  end.

Fixpoint pos_pairs (wo : nat) (lives : list (nat * nat)) : list (nat * nat) :=
  match lives with
  | [] => []
  | (c, s) :: r => (c, wo) :: pos_pairs (wo + s) r
  end.

Lemma pos_pairs_ge wo lives exp total c w : chain exp lives total ->
  In (c, w) (pos_pairs wo lives) -> exp <= c.
Proof.
  revert wo exp; induction lives as [|[c' s] r IH]; intros wo exp H Hin; simpl in *; [contradiction|].
  destruct H as (H1 & H2 & H3). destruct Hin as [E|Hin]; [inv E; auto|].
  apply (IH _ _ H3) in Hin. lia.
Qed.

Lemma gc_live lives : forall exp wo total prev c w,
  chain exp lives total -> prev_ok prev exp wo -> In (c, w) (pos_pairs wo lives) ->
  upd_with (gc_find (gaps_of exp wo lives total) c prev) c = Ret (Some w).
Proof.
  induction lives as [|[c0 s] r IH]; intros exp wo total prev c w H Hp Hin; [contradiction|].
  destruct H as (H1 & H2 & H3). simpl in Hin. rewrite gaps_of_cons.
  assert (Hst : forall g, In g (gaps_of (c0 + s) (wo + s) r total) -> c0 < g_start g).
  { intros g Hg. apply gaps_start in Hg; auto. lia. }
  destruct Hp as [Hwo Hp]. destruct (Nat.eqb_spec c0 exp) as [->|Hne]; cbn [negb app].
  - destruct Hin as [E|Hin].
    + inv E. rewrite gc_find_stop by auto. unfold upd_with. destruct prev as [g|]; [|rewrite Hp; reflexivity].
      destruct Hp as [He Hs]. destruct (Nat.ltb_spec c (g_end g)); [lia|].
      destruct (Nat.leb_spec (g_shift g) c); [|lia]. do 2 f_equal. lia.
    + apply IH; auto. split; [lia|]. destruct prev; lia.
  - cbn [gc_find g_start]. destruct Hin as [E|Hin].
    + inv E. destruct (Nat.leb_spec exp c); [|lia]. rewrite gc_find_stop by auto.
      unfold upd_with. cbn [g_end g_shift]. destruct (Nat.ltb_spec c c); [lia|].
      destruct (Nat.leb_spec (c - w) c); [|lia]. do 2 f_equal. lia.
    + pose proof (pos_pairs_ge _ _ _ _ _ _ H3 Hin). destruct (Nat.leb_spec exp c); [|lia].
      apply IH; auto. split; [lia|]. cbn [g_end g_shift]. lia.
Qed.

Lemma gc_dead lives : forall exp wo total prev x,
  chain exp lives total -> wo <= exp -> exp <= x -> x < total ->
  (forall c s, In (c, s) lives -> x < c \/ c + s <= x) ->
  upd_with (gc_find (gaps_of exp wo lives total) x prev) x = Ret None.
Proof.
  induction lives as [|[c0 s] r IH]; intros exp wo total prev x H Hwo Hx1 Hx2 Hd.
  - rewrite gaps_of_nil. destruct (Nat.eqb_spec total exp); [lia|]. cbn [negb gc_find g_start].
    destruct (Nat.leb_spec exp x); [|lia]. unfold upd_with. cbn [g_end].
    destruct (Nat.ltb_spec x total); [auto|lia].
  - destruct H as (H1 & H2 & H3). rewrite gaps_of_cons.
    destruct (Hd c0 s (or_introl eq_refl)) as [Hlt|Hge].
    + destruct (Nat.eqb_spec c0 exp); [lia|]. cbn [negb app gc_find g_start].
      destruct (Nat.leb_spec exp x); [|lia]. rewrite gc_find_stop.
      * unfold upd_with. cbn [g_end]. destruct (Nat.ltb_spec x c0); [auto|lia].
      * intros g Hg. apply gaps_start in Hg; auto. lia.
    + assert (G : forall p, upd_with (gc_find (gaps_of (c0 + s) (wo + s) r total) x p) x = Ret None).
      { intro p. apply IH; auto; try lia. intros c s' Hin. apply Hd. right; auto. }
      destruct (Nat.eqb_spec c0 exp); cbn [negb app]; [apply G|]. cbn [gc_find g_start].
      destruct (Nat.leb_spec exp x); [|lia]. apply G.
Qed.

(** ** The loop *)

Section Gc.
Variable HL : nat.
Notation bok := (bok HL). Notation bsize := (bsize HL). Notation ents := (ents HL).

Definition b_live (b : blk) : bool := match b_lits b with [] => false | _ => true end.
Definition b_compact (b : blk) : blk := mkB (b_hdr b) (b_lits b) [].
Definition compact (bs : list blk) : list blk := map b_compact (filter b_live bs).

Fixpoint lives (o : nat) (bs : list blk) : list (nat * nat) :=
  match bs with
  | [] => []
  | b :: r =>
      (if b_live b then [(o, HL + 1 + length (b_lits b))] else []) ++ lives (o + bsize b) r
  end.

Lemma bok_compact b : bok b -> b_live b = true -> bok (b_compact b).
Proof.
  intros H Hl. split; simpl; try apply H; auto. unfold b_live in Hl. destruct (b_lits b); congruence.
Qed.

Lemma compact_ok bs : Forall bok bs -> Forall bok (compact bs).
Proof.
  induction 1 as [|b bs Hb H IH]; unfold compact in *; simpl; auto.
  destruct (b_live b) eqn:E; simpl; auto using bok_compact.
Qed.

Lemma lives_chain o bs exp : Forall bok bs -> exp <= o -> chain exp (lives o bs) (o + length (buf bs)).
Proof.
  intro H. revert o exp; induction H as [|b bs Hb H IH]; intros o exp Ho.
  - simpl. unfold buf. simpl. lia.
  - cbn [lives]. rewrite buf_cons, app_length, (bwords_len HL) by auto.
    assert (bsize b >= HL + 1 + length (b_lits b)) by (unfold Proof_Arena.bsize; lia).
    replace (o + (bsize b + length (buf bs))) with (o + bsize b + length (buf bs)) by lia.
    destruct (b_live b); simpl.
    + split; auto. split; [lia|]. apply IH. lia.
    + apply IH. lia.
Qed.

Lemma bwords_compact b : bwords (b_compact b) = b_hdr b ++ mark (length (b_lits b)) :: b_lits b.
Proof. unfold bwords. simpl. rewrite app_nil_r. reflexivity. Qed.

Lemma trunc32_id n : (N.of_nat n < 4294967296)%N -> trunc32 n = n.
Proof. intro H. unfold trunc32. rewrite to_u32_small by auto. lia. Qed.

Lemma first_live_none_lives bs : forall o o', first_live HL o bs = None -> lives o' bs = [].
Proof.
  induction bs as [|b bs IH]; intros o o' H; auto. cbn [first_live lives] in *.
  unfold b_live. destruct (b_lits b); [|discriminate]. simpl. eapply IH; eauto.
Qed.

(** The gaps as recorded, with 32-bit offsets. *)
Definition tgap (g : gap) : gap := mkGap (trunc32 (g_start g)) (trunc32 (g_end g)) (trunc32 (g_shift g)).

Lemma tgap_gapl lv : forall exp wo t, chain exp lv t -> wo <= exp -> (N.of_nat t < 4294967296)%N ->
  map tgap (fst (gapl exp wo lv)) = fst (gapl exp wo lv).
Proof.
  induction lv as [|[c s] r IH]; intros exp wo t CH Hw Ht; [reflexivity|]. cbn [chain gapl] in *.
  destruct CH as (C1 & C2 & CH). pose proof (chain_le _ _ _ CH). specialize (IH (c + s) (wo + s) t CH).
  destruct (gapl (c + s) (wo + s) r) as [G e]. cbn [fst] in *. rewrite map_app, IH by (auto; lia).
  destruct (negb (c =? exp)); [|reflexivity]. cbn [map app]. unfold tgap. cbn [g_start g_end g_shift].
  rewrite !trunc32_id by lia. reflexivity.
Qed.

Lemma gc_loop_ok bs : Forall bok bs -> forall fuel W J g exp gaps,
  length (filter b_live bs) < fuel -> length W <= exp -> exp <= length W + length J ->
  exists J', gc_loop HL fuel (mkArena (W ++ J ++ buf bs) g) (first_live HL (length W + length J) bs) (length W) exp gaps =
    Ret (mkArena (W ++ buf (compact bs) ++ J') g, length W + length (buf (compact bs)),
         snd (gapl exp (length W) (lives (length W + length J) bs)),
         gaps ++ map tgap (fst (gapl exp (length W) (lives (length W + length J) bs)))) /\
    length (buf (compact bs) ++ J') = length (J ++ buf bs).
Proof.
  induction 1 as [|b bs Hb H IH]; intros fuel W J g exp gaps Hf Hw1 Hw2.
  - destruct fuel; [lia|]. exists J. simpl. unfold buf. simpl. rewrite Nat.add_0_r, !app_nil_r. auto.
  - cbn [first_live lives]. unfold compact. cbn [filter]. cbn [filter] in Hf.
    rewrite buf_cons in *.
    assert (Ev : (match b_lits b with [] => first_live HL (length W + length J + bsize b) bs | _ => Some (length W + length J) end) =
      if b_live b then Some (length W + length J) else first_live HL (length W + length J + bsize b) bs).
    { unfold b_live. destruct (b_lits b); auto. }
    rewrite Ev. clear Ev. destruct (b_live b) eqn:El; cbn [app].
    2:{ destruct (IH fuel W (J ++ bwords b) g exp gaps) as (J' & E & EL); auto.
      { rewrite app_length. lia. }
      rewrite app_length, (bwords_len HL b Hb), Nat.add_assoc in E. rewrite <- app_assoc in E, EL.
      exists J'. split; auto. }
    { simpl in Hf. destruct fuel as [|fuel]; [lia|].
      set (P := W ++ J). assert (LP : length P = length W + length J) by (unfold P; apply app_length).
      cbn [gc_loop].
      replace (W ++ J ++ bwords b ++ buf bs) with (P ++ bwords b ++ buf bs) by (unfold P; rewrite <- app_assoc; auto).
      rewrite <- LP. rewrite next_suffix by auto. cbn [bind].
      assert (BW : bwords b = bwords (b_compact b) ++ b_pad b).
      { rewrite bwords_compact. unfold bwords. rewrite <- app_assoc. reflexivity. }
      assert (CL : clause_len HL (mkArena (P ++ bwords b ++ buf bs) g) (length P) = Ret (length (b_lits b))).
      { unfold clause_len. cbn [a_buffer].
        replace (P ++ bwords b ++ buf bs) with ((P ++ b_hdr b) ++ mark (length (b_lits b)) :: (b_lits b ++ b_pad b) ++ buf bs).
        2:{ unfold bwords. rewrite <- !app_assoc. simpl. rewrite <- !app_assoc. reflexivity. }
        rewrite (proj2 (vget_ok _ _ (mark (length (b_lits b))))).
        - cbn [bind]. rewrite mark_marker, mark_len by apply (bo_len HL b Hb). reflexivity.
        - apply nth_mid_app. rewrite app_length, (bo_hdr HL b Hb). reflexivity. }
      rewrite CL. cbn [bind a_buffer a_garbage].
      set (s := HL + 1 + length (b_lits b)).
      replace (length (b_lits b) + HL + 1) with s by (unfold s; lia).
      assert (Ls : length (bwords (b_compact b)) = s).
      { rewrite bwords_compact, app_length. simpl. rewrite (bo_hdr HL b Hb). unfold s. lia. }
      assert (RD : read_words (P ++ bwords b ++ buf bs) (length P) s = Ret (bwords (b_compact b))).
      { rewrite BW, <- app_assoc. apply read_words_app; auto. }
      rewrite RD. cbn [bind].
      set (JB := J ++ bwords b).
      assert (LJB : s <= length JB).
      { unfold JB. rewrite app_length, BW, app_length, Ls. lia. }
      assert (WR : write_words (P ++ bwords b ++ buf bs) (length W) (bwords (b_compact b)) =
                   (W ++ bwords (b_compact b)) ++ skipn s JB ++ buf bs).
      { replace (P ++ bwords b ++ buf bs) with (W ++ firstn s JB ++ (skipn s JB ++ buf bs)).
        2:{ rewrite (app_assoc (firstn s JB)), firstn_skipn. unfold JB, P. rewrite <- !app_assoc. auto. }
        rewrite write_words_app; [rewrite <- app_assoc; auto|]. rewrite firstn_length. lia. }
      rewrite WR.
      assert (LS : length (skipn s JB) = length J + bsize b - s).
      { rewrite skipn_length. unfold JB. rewrite app_length, (bwords_len HL) by auto. lia. }
      assert (Bs : s <= bsize b) by (unfold s, Proof_Arena.bsize; lia).
      replace (length P + bsize b) with (length (W ++ bwords (b_compact b)) + length (skipn s JB))
        by (rewrite LS, app_length, Ls; lia).
      replace (length W + s) with (length (W ++ bwords (b_compact b))) by (rewrite app_length, Ls; auto).
      assert (T1 : length (W ++ J ++ bwords b ++ buf bs) = length P + bsize b + length (buf bs)).
      { unfold P. rewrite !app_length, (bwords_len HL) by auto. lia. }
      destruct (IH fuel (W ++ bwords (b_compact b)) (skipn s JB) g (length P + s)
         (if negb (length P =? exp) then gaps ++ [mkGap (trunc32 exp) (trunc32 (length P)) (trunc32 (length P - length W))] else gaps))
        as (J' & E & EL).
      { lia. }
      { rewrite app_length, Ls. lia. }
      { rewrite app_length, Ls, LS. lia. }
      rewrite E. exists J'. split.
      * cbn [map]. rewrite buf_cons. cbn [app gapl].
        rewrite <- !app_assoc. fold (compact bs).
        assert (LC : length (W ++ bwords (b_compact b)) = length W + s) by (rewrite app_length, Ls; auto).
        rewrite LC, LP. replace (length W + length J + s + 0) with (length W + length J + s) by lia.
        assert (O1 : length W + s + length (skipn s JB) = length W + length J + bsize b) by (rewrite LS; lia).
        rewrite O1.
        rewrite <- LP at 3 4. rewrite LP.
        destruct (gapl (length W + length J + s) (length W + s) (lives (length W + length J + bsize b) bs)) as [G e].
        cbn [fst snd]. f_equal. f_equal.
        { f_equal. rewrite app_length, Ls. f_equal. lia. }
        rewrite map_app. destruct (negb (length W + length J =? exp)); [|reflexivity]. rewrite <- app_assoc. reflexivity.
      * cbn [map]. rewrite buf_cons. fold (compact bs). rewrite !app_length in *. rewrite Ls in *.
        rewrite (bwords_len HL b Hb). lia. }
Qed.
End Gc.
