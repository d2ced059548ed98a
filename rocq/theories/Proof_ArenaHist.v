(** The arena at the level of its contents. *)
From Coq Require Import NArith List Bool Arith Lia ZifyN ZifyNat ZifyBool.
From Verif Require Import Model_Base Model_Lit Model_Header Model_Arena Spec Drivers_Arena Proof_Base Proof_Header
  Proof_Arena Proof_ArenaGc.
Import ListNotations.

Lemma es_upd_out c h l es : (forall e, In e es -> e_ref e <> c) -> es_upd c h l es = es.
Proof.
  intro H. unfold es_upd. erewrite map_ext_in; [apply map_id|].
  intros e He. destruct (Nat.eqb_spec (e_ref e) c); auto. exfalso. eapply H; eauto.
Qed.

Section Hist.
Variable HL : nat.
Notation bok := (bok HL). Notation bsize := (bsize HL). Notation ents := (ents HL).

(** Words not occupied by live clauses. *)
Fixpoint waste (bs : list blk) : nat :=
  match bs with
  | [] => 0
  | b :: r => (if b_live b then length (b_pad b) else bsize b) + waste r
  end.

(** The references fit into 32 bits. *)
Definition fit (es : list entry) : Prop := forall e, In e es -> (N.of_nat (e_ref e) <= LITIDX_MAX)%N.
Lemma fit_upd c h l es : fit es -> fit (es_upd c h l es).
Proof.
  intros H e He. unfold es_upd in He. apply in_map_iff in He as (e0 & E & He). specialize (H e0 He).
  destruct (Nat.eqb_spec (e_ref e0) c) as [G|G]; [|subst; exact H]. rewrite <- E. unfold e_ref at 1. cbn [fst]. rewrite <- G. exact H.
Qed.

(** [AR gx a es]: the arena holds [es]; if [gx], the garbage count is exact. *)
Definition AR (gx : bool) (a : arena) (es : list entry) : Prop :=
  exists bs, Brep HL a bs /\ es = ents 0 bs /\ ((gx = true -> a_garbage a = waste bs) /\ fit es).
Lemma AR_fit gx a es : AR gx a es -> fit es.
Proof. intros (bs & _ & _ & _ & H). exact H. Qed.

Lemma AR_weaken gx a es : AR gx a es -> AR false a es.
Proof. intros (bs & H1 & H2 & _ & H3). exists bs. repeat split; auto; try apply H1. discriminate. Qed.

Lemma waste_app bs1 bs2 : waste (bs1 ++ bs2) = waste bs1 + waste bs2.
Proof. induction bs1; simpl; auto. lia. Qed.

Lemma waste_used bs o : Forall bok bs -> waste bs + used_words HL (ents o bs) = length (buf bs).
Proof.
  intro H. revert o; induction H as [|b bs Hb H IH]; intro o; auto.
  rewrite buf_cons, app_length, (bwords_len HL) by auto. specialize (IH (o + bsize b)).
  unfold used_words in *. cbn [waste Proof_Arena.ents filter].
  assert (El : e_live (o, b_hdr b, b_lits b) = b_live b) by reflexivity. rewrite El.
  destruct (b_live b).
  - cbn [fold_right]. unfold e_lits at 1. cbn [snd]. unfold Proof_Arena.bsize in *. lia.
  - lia.
Qed.

Lemma es_upd_block bs1 b b' bs2 : Forall bok bs1 -> Forall bok bs2 -> bok b -> bsize b' = bsize b ->
  ents 0 (bs1 ++ b' :: bs2) = es_upd (length (buf bs1)) (b_hdr b') (b_lits b') (ents 0 (bs1 ++ b :: bs2)).
Proof.
  intros H1 H2 Hb Es. rewrite !ents_app by auto. unfold es_upd. rewrite map_app.
  cbn [Proof_Arena.ents map plus]. unfold e_ref at 2. cbn [fst]. rewrite Nat.eqb_refl, Es. f_equal; [|f_equal].
  - symmetry. apply es_upd_out. intros e He. apply (ents_bounds HL _ _ H1) in He. lia.
  - symmetry. apply es_upd_out. intros e He. apply (ents_bounds HL _ _ H2) in He.
    unfold Proof_Arena.bsize in He. lia.
Qed.

Lemma AR_nodup gx a es : AR gx a es -> NoDup (map e_ref es).
Proof. intros (bs & [_ H] & -> & _). apply ents_nodup; auto. Qed.

Lemma AR_split gx a es c h l : AR gx a es -> In (c, h, l) es ->
  exists bs1 b bs2, Brep HL a (bs1 ++ b :: bs2) /\ es = ents 0 (bs1 ++ b :: bs2) /\
    c = length (buf bs1) /\ h = b_hdr b /\ l = b_lits b /\
    bok b /\ Forall bok bs1 /\ Forall bok bs2 /\
    ((gx = true -> a_garbage a = waste (bs1 ++ b :: bs2)) /\ fit (ents 0 (bs1 ++ b :: bs2))).
Proof.
  intros (bs & H & -> & G) Hin. destruct (ents_in HL 0 bs c h l (proj2 H) Hin) as (bs1 & b & bs2 & -> & -> & -> & ->).
  pose proof (proj2 H) as F. apply Forall_app in F as [F1 F2]. inversion F2; subst.
  exists bs1, b, bs2. do 8 (split; [auto|]). auto.
Qed.

Ltac split_ar H Hi := destruct (AR_split _ _ _ _ _ _ H Hi) as (bs1 & b & bs2 & HB & -> & -> & -> & -> & Hb & H1 & H2 & HG & HF).

Lemma AR_len gx a es c h l : AR gx a es -> In (c, h, l) es -> clause_len HL a c = Ret (length l).
Proof. intros H Hi. split_ar H Hi. eapply clause_len_block; eauto. Qed.
Lemma AR_lits gx a es c h l : AR gx a es -> In (c, h, l) es -> arena_lits HL a c = Ret l.
Proof. intros H Hi. split_ar H Hi. eapply lits_block; eauto. Qed.
Lemma AR_header gx a es c h l : AR gx a es -> In (c, h, l) es -> arena_header HL a c = Ret h.
Proof. intros H Hi. split_ar H Hi. eapply header_block; eauto. Qed.

Lemma AR_words gx a es c h l : AR gx a es -> In (c, h, l) es ->
  length h = HL /\ Forall clear h /\ Forall clear l /\ clear (N.of_nat (length l)) /\
  c + HL + 1 + length l <= length (a_buffer a).
Proof.
  intros H Hi. pose proof H as (bs & [HB F] & -> & _). rewrite HB.
  pose proof (ents_bounds HL 0 bs F _ Hi) as B. unfold e_ref, e_lits in B. simpl in B.
  destruct (ents_in HL 0 bs c h l F Hi) as (bs1 & b & bs2 & -> & -> & -> & ->).
  apply Forall_app in F as [_ F]. inversion F as [|? ? Hb ?]; subst. do 4 (split; [apply Hb|]). lia.
Qed.

Lemma bs_update gx a' bs1 b b' bs2 :
  Brep HL a' (bs1 ++ b' :: bs2) -> bok b -> Forall bok bs1 -> Forall bok bs2 -> bsize b' = bsize b ->
  (gx = true -> a_garbage a' = waste (bs1 ++ b' :: bs2)) -> fit (ents 0 (bs1 ++ b :: bs2)) ->
  AR gx a' (es_upd (length (buf bs1)) (b_hdr b') (b_lits b') (ents 0 (bs1 ++ b :: bs2))).
Proof.
  intros HB Hb H1 H2 Es G HF. exists (bs1 ++ b' :: bs2). split; [apply HB|]. split; [symmetry; apply es_upd_block; auto|].
  split; [exact G|]. apply fit_upd. exact HF.
Qed.

Lemma AR_set_header gx a es c h l h' : AR gx a es -> In (c, h, l) es -> length h' = HL -> Forall clear h' ->
  exists a', arena_set_header HL a c h' = Ret a' /\ AR gx a' (es_upd c h' l es).
Proof.
  intros H Hi Hh Hc. split_ar H Hi.
  destruct (set_header_block HL a bs1 b bs2 h' HB Hh Hc) as (a' & E & HB' & Eg).
  exists a'. split; auto. apply (bs_update gx a' bs1 b (mkB h' (b_lits b) (b_pad b)) bs2); auto.
  intro Hg. rewrite Eg, (HG Hg), !waste_app. reflexivity.
Qed.

Lemma live_len b : b_live b = negb (Nat.eqb (length (b_lits b)) 0).
Proof. unfold b_live. destruct (b_lits b); reflexivity. Qed.

Lemma AR_set_lits gx a es c h l l' : AR gx a es -> In (c, h, l) es -> length l' = length l -> Forall clear l' ->
  exists a', arena_set_lits HL a c l' = Ret a' /\ AR gx a' (es_upd c h l' es).
Proof.
  intros H Hi Hl Hc. split_ar H Hi.
  destruct (set_lits_block HL a bs1 b bs2 l' HB Hl Hc) as (a' & E & HB' & Eg).
  exists a'. split; auto. apply (bs_update gx a' bs1 b (mkB (b_hdr b) l' (b_pad b)) bs2); auto.
  - unfold Proof_Arena.bsize. simpl. lia.
  - intro Hg. rewrite Eg, (HG Hg), !waste_app. cbn [waste]. rewrite !live_len. cbn [b_lits b_pad]. rewrite Hl.
    unfold Proof_Arena.bsize. cbn [b_lits b_pad]. rewrite Hl. reflexivity.
Qed.

Lemma AR_delete gx a es c h l : AR gx a es -> In (c, h, l) es -> l <> [] ->
  exists a', arena_delete_clause HL a c = Ret a' /\ AR gx a' (es_upd c h [] es).
Proof.
  intros H Hi Hne. split_ar H Hi.
  destruct (delete_block HL a bs1 b bs2 HB Hne) as (a' & p & E & HB' & Lp & Eg).
  exists a'. split; auto. apply (bs_update gx a' bs1 b (mkB (b_hdr b) [] p) bs2); auto.
  - unfold Proof_Arena.bsize. simpl. lia.
  - intro Hg. rewrite Eg, (HG Hg), !waste_app. cbn [waste]. rewrite !live_len. unfold Proof_Arena.bsize. cbn [b_lits b_pad length].
    destruct (Nat.eqb_spec (length (b_lits b)) 0); [destruct (b_lits b); simpl in *; congruence|]. simpl. lia.
Qed.

Lemma AR_delete_dead a es c h : AR false a es -> In (c, h, []) es ->
  exists a', arena_delete_clause HL a c = Ret a' /\ AR false a' (es_upd c h [] es).
Proof.
  intros H Hi. pose proof Hi as Hi2. destruct (AR_split _ _ _ _ _ _ H Hi) as (bs1 & b & bs2 & HB & Ees & Ec & Eh & El & Hb & H1 & H2 & HG & HF).
  destruct (delete_dead HL a bs1 b bs2 HB (eq_sym El)) as (a' & E & HB' & Eg).
  exists a'. subst. split; auto.
  replace (es_upd (length (buf bs1)) (b_hdr b) [] (ents 0 (bs1 ++ b :: bs2))) with (es_upd (length (buf bs1)) (b_hdr b) (b_lits b) (ents 0 (bs1 ++ b :: bs2))) by (rewrite <- El; auto).
  apply (bs_update false a' bs1 b b bs2); auto. discriminate.
Qed.

Lemma AR_shrink hook gx a es c h l n : hook_ok HL hook -> AR gx a es -> In (c, h, l) es -> 1 <= n <= length l ->
  exists a', arena_shrink_clause HL hook a c n = Ret a' /\
    AR gx a' (es_upd c (hook h (length l) n) (firstn n l) es).
Proof.
  intros Hk H Hi Hn. split_ar H Hi.
  destruct (shrink_block HL hook a bs1 b bs2 n HB Hn Hk) as (a' & p & E & HB' & Lp & Eg).
  exists a'. split; auto.
  apply (bs_update gx a' bs1 b (mkB (hook (b_hdr b) (length (b_lits b)) n) (firstn n (b_lits b)) p) bs2); auto.
  - unfold Proof_Arena.bsize. simpl. rewrite firstn_length. lia.
  - intro Hg. rewrite Eg, (HG Hg), !waste_app. cbn [waste]. rewrite !live_len. unfold Proof_Arena.bsize. cbn [b_lits b_pad].
    rewrite firstn_length.
    destruct (Nat.eqb_spec (Nat.min n (length (b_lits b))) 0); [lia|].
    destruct (Nat.eqb_spec (length (b_lits b)) 0); [lia|]. cbn [negb]. lia.
Qed.

Lemma AR_add gx a es h l : AR gx a es -> length h = HL -> Forall clear h -> Forall clear l -> l <> [] ->
  (N.of_nat (length (a_buffer a)) <= LITIDX_MAX)%N -> (N.of_nat (length l) <= HEADER_MASK)%N ->
  exists a', arena_add_clause a h l = Ret (Some (length (a_buffer a)), a') /\
    AR gx a' (es ++ [(length (a_buffer a), h, l)]).
Proof.
  intros (bs & HB & -> & G & HF) Hh Hc Hl Hne B1 B2.
  destruct (add_block HL a bs h l HB Hh Hc Hl Hne B1 B2) as (a' & E & HB' & Eg).
  rewrite (proj1 HB) in *. exists a'. split; auto. exists (bs ++ [mkB h l []]). split; auto. split; [|split].
  - rewrite ents_app by apply HB. reflexivity.
  - intro Hg. rewrite Eg, (G Hg), waste_app. simpl. destruct l; [congruence|]. simpl. lia.
  - intros e He. apply in_app_or in He as [He|[<-|[]]]; [apply HF; auto|exact B1].
Qed.

Lemma AR_add_full gx a es h l a' : AR gx a es -> arena_add_clause a h l = Ret (None, a') -> a' = a.
Proof.
  intros _ E. unfold arena_add_clause in E. destruct (negb (length l =? 0)); [|discriminate].
  destruct (_ || _); congruence.
Qed.

Lemma AR_empty gx : AR gx arena_empty [].
Proof. exists []. repeat split; auto. intros e []. Qed.

(** Iteration *)
Lemma AR_next_none gx a es : AR gx a es -> next_clause HL a None = Ret (first_live_e es).
Proof. intros (bs & HB & -> & _). rewrite (next_none HL a bs HB). f_equal. apply first_live_ents. Qed.


Lemma AR_next_some gx a es1 e es2 : AR gx a (es1 ++ e :: es2) ->
  next_clause HL a (Some (e_ref e)) = Ret (first_live_e es2).
Proof.
  intros (bs & HB & E & _). pose proof (proj2 HB) as F.
  destruct e as [[c h] l]. assert (Hi : In (c, h, l) (ents 0 bs)) by (rewrite <- E; apply in_elt).
  destruct (ents_in HL 0 bs c h l F Hi) as (bs1 & b & bs2 & -> & -> & -> & ->).
  unfold e_ref. cbn [fst Nat.add] in *. etransitivity; [exact (next_some HL a bs1 b bs2 HB)|]. f_equal. rewrite first_live_ents. f_equal.
  apply Forall_app in F as [F1 F2]. inversion F2; subst. rewrite ents_app in E by auto. cbn [Proof_Arena.ents Nat.add] in E.
  pose proof (ents_nodup HL 0 (bs1 ++ b :: bs2) (proj2 HB)) as ND. rewrite ents_app in ND by auto. cbn [Proof_Arena.ents Nat.add] in ND.
  assert (G : forall (e : entry) es1 xs es2 ys, es1 ++ e :: es2 = xs ++ e :: ys -> NoDup (map e_ref (xs ++ e :: ys)) -> es2 = ys).
  { clear. induction es1 as [|x es1 IH]; intros [|y xs] es2 ys E ND; simpl in *.
    - congruence.
    - inv E. inversion ND; subst. exfalso. apply H1. rewrite map_app. apply in_elt.
    - inv E. inversion ND; subst. exfalso. apply H1. rewrite map_app. apply in_elt.
    - inv E. inversion ND; subst. eapply IH; eauto. }
  symmetry. exact (G _ _ _ _ _ E ND).
Qed.

(** Garbage collection *)
Lemma lives_ents bs : forall o e, In e (ents o bs) -> e_live e = true ->
  In (e_ref e, HL + 1 + length (e_lits e)) (lives HL o bs).
Proof.
  induction bs as [|b bs IH]; intros o e He Hl; [contradiction|]. cbn [Proof_Arena.ents lives] in *.
  destruct He as [<-|He].
  - unfold e_live, e_lits in Hl. cbn [snd] in Hl. unfold b_live. destruct (b_lits b) eqn:E; [discriminate|]. unfold e_ref, e_lits. simpl. left. reflexivity.
  - apply in_app_iff. right. apply IH; auto.
Qed.

Lemma lives_in bs : forall o c s, In (c, s) (lives HL o bs) ->
  exists e, In e (ents o bs) /\ e_live e = true /\ c = e_ref e /\ s = HL + 1 + length (e_lits e).
Proof.
  induction bs as [|b bs IH]; intros o c s H; [contradiction|]. cbn [Proof_Arena.ents lives] in *.
  apply in_app_iff in H as [H|H].
  - destruct (b_live b) eqn:E; [|contradiction]. destruct H as [H|[]]. inv H.
    eexists. split; [left; reflexivity|]. auto.
  - destruct (IH _ _ _ H) as (e & A & B). exists e. split; [right|]; auto.
Qed.

Lemma gc_pairs bs : forall o wo, Forall bok bs ->
  Forall2 (fun e e' => In (e_ref e, e_ref e') (pos_pairs wo (lives HL o bs)) /\ e_hdr e' = e_hdr e /\ e_lits e' = e_lits e)
    (filter e_live (ents o bs)) (ents wo (compact bs)).
Proof.
  induction bs as [|b bs IH]; intros o wo F; [constructor|]. inversion F; subst.
  unfold compact. cbn [Proof_Arena.ents filter lives].
  assert (El : e_live (o, b_hdr b, b_lits b) = b_live b) by reflexivity. rewrite El.
  destruct (b_live b); cbn [app].
  - cbn [map Proof_Arena.ents pos_pairs]. constructor.
    + cbn. auto.
    + assert (Bs : bsize (b_compact b) = HL + 1 + length (b_lits b)) by (unfold Proof_Arena.bsize; simpl; lia).
      rewrite Bs. eapply Forall2_imp; [|apply IH; auto]. intros e e' (A & B). split; auto. right. exact A.
  - apply IH. auto.
Qed.

Lemma compact_waste bs : waste (compact bs) = 0.
Proof.
  induction bs as [|b bs IH]; auto. unfold compact in *. simpl. destruct (b_live b) eqn:E; auto. simpl.
  unfold b_live in *. simpl. destruct (b_lits b); [discriminate|]. simpl. exact IH.
Qed.

Lemma fit_compact bs : Forall bok bs -> forall o wo, wo <= o -> fit (ents o bs) -> fit (ents wo (compact bs)).
Proof.
  induction 1 as [|b bs Hb H IH]; intros o wo L HF; [intros e []|]. unfold compact in *. cbn [filter].
  assert (HT : fit (ents (o + bsize b) bs)) by (intros e He; apply HF; right; exact He).
  destruct (b_live b).
  - cbn [map Proof_Arena.ents]. intros e [<-|He].
    + specialize (HF _ (or_introl eq_refl)). unfold e_ref in *. cbn [fst] in *. lia.
    + revert e He. apply (IH (o + bsize b)); auto. unfold Proof_Arena.bsize. cbn [b_compact b_lits b_pad length]. lia.
  - apply (IH (o + bsize b)); auto. lia.
Qed.
Lemma live_count bs : Forall bok bs -> length (filter b_live bs) <= length (buf bs).
Proof.
  induction 1 as [|b bs Hb H IH]; simpl; auto. rewrite buf_cons, app_length, (bwords_len HL) by auto.
  unfold Proof_Arena.bsize. destruct (b_live b); simpl; lia.
Qed.

Lemma AR_collect gx a es : AR gx a es -> (N.of_nat (length (a_buffer a)) < 4294967296)%N ->
  exists a' gaps es', collect_garbage HL a = Ret (a', gaps) /\ AR true a' es' /\
    Forall2 (fun e e' => gc_update gaps (e_ref e) = Ret (Some (e_ref e')) /\
                         e_hdr e' = e_hdr e /\ e_lits e' = e_lits e)
      (filter e_live es) es' /\
    (forall e, In e es -> e_live e = false -> gc_update gaps (e_ref e) = Ret None).
Proof.
  intros (bs & HB & -> & _ & HF) Hsz. pose proof (proj2 HB) as F. destruct a as [w g]. pose proof (proj1 HB) as E0. cbn [a_buffer] in *. subst w.
  unfold collect_garbage. rewrite (next_none HL _ bs HB). cbn [bind a_buffer].
  destruct (gc_loop_ok HL bs F (S (length (buf bs))) [] [] g 0 []) as (J' & E & EL).
  { pose proof (live_count bs F). lia. }
  { simpl; lia. } { simpl; lia. }
  cbn [app length Nat.add] in E, EL.
  rewrite (tgap_gapl (lives HL 0 bs) 0 0 (length (buf bs))) in E; [|apply (lives_chain HL 0 bs 0 F (le_n 0))|lia|exact Hsz]. rewrite E. cbn [bind a_buffer app]. rewrite EL.
  rewrite firstn_app, Nat.sub_diag, firstn_all. cbn [firstn]. rewrite app_nil_r.
  assert (EG : (if negb (length (buf bs) =? snd (gapl 0 0 (lives HL 0 bs)))
     then fst (gapl 0 0 (lives HL 0 bs)) ++
       [mkGap (trunc32 (snd (gapl 0 0 (lives HL 0 bs)))) (trunc32 (length (buf bs))) (trunc32 (length (buf bs) - length (buf (compact bs))))]
     else fst (gapl 0 0 (lives HL 0 bs))) = gaps_of 0 0 (lives HL 0 bs) (length (buf bs))).
  { unfold gaps_of.
    assert (Es : length (buf (compact bs)) = sizes (lives HL 0 bs)).
    { clear - F. generalize 0 as o. induction F as [|b bs Hb F IH]; intro o; auto. unfold compact in *. cbn [filter lives].
      destruct (b_live b) eqn:Elv; cbn [app]; auto. cbn [map sizes]. rewrite buf_cons, app_length, IH with (o := o + bsize b).
      rewrite (bwords_len HL) by (apply bok_compact; auto). unfold Proof_Arena.bsize. simpl. lia. }
    assert (Hle : snd (gapl 0 0 (lives HL 0 bs)) <= length (buf bs)).
    { assert (CHL : forall lv wo exp t, chain exp lv t -> snd (gapl exp wo lv) <= t).
      { clear. induction lv as [|[c s] r IH]; intros wo exp t CH; simpl in *; auto.
        destruct CH as (_ & _ & CH). specialize (IH (wo + s) _ _ CH). destruct (gapl (c + s) (wo + s) r). simpl in *. auto. }
      apply CHL. apply (lives_chain HL 0 bs 0 F (le_n 0)). }
    destruct (gapl 0 0 (lives HL 0 bs)) as [G e]. cbn [fst snd Nat.add] in *. rewrite <- Es.
    rewrite !trunc32_id by lia. reflexivity. }
  rewrite EG. clear EG E EL.
  do 3 eexists. split; [reflexivity|]. split; [|split].
  - exists (compact bs). split; [split; auto; apply compact_ok; auto|]. split; [reflexivity|]. split.
    + intros _. cbn [a_garbage]. symmetry. apply compact_waste.
    + apply (fit_compact bs F 0 0); auto.
  - eapply Forall2_imp; [|apply (gc_pairs bs 0 0 F)]. intros e e' (A & B). split; auto.
    rewrite gc_update_with. eapply gc_live; eauto.
    + apply (lives_chain HL 0 bs 0 F). lia.
    + split; auto.
  - intros e He Hd. rewrite gc_update_with. apply gc_dead; try lia.
    + apply (lives_chain HL 0 bs 0 F). lia.
    + apply (ents_bounds HL 0 bs F) in He. lia.
    + intros c s Hin. apply lives_in in Hin as (e' & He' & Hl' & -> & ->).
      destruct e as [[c1 h1] l1], e' as [[c2 h2] l2]. unfold e_ref, e_lits, e_live, e_lits in *. cbn [fst snd] in *.
      clear - F He He' Hd Hl'. 
      assert (G : forall o, In (c1, h1, l1) (ents o bs) -> In (c2, h2, l2) (ents o bs) -> c1 < c2 \/ c2 + (HL + 1 + length l2) <= c1).
      2:{ apply (G 0); auto. }
      clear He He'. induction F as [|b bs Hb F IH]; intros o He He'; [contradiction|].
      cbn [Proof_Arena.ents] in *. destruct He as [E1|He], He' as [E2|He'].
      * inv E1. destruct l2; [discriminate Hl'|]. injection E2 as _ _ E2. rewrite E2 in Hd. discriminate.
      * inv E1. apply (ents_bounds HL _ _ F) in He'. unfold e_ref, Proof_Arena.bsize in He'. simpl in He'. lia.
      * inv E2. apply (ents_bounds HL _ _ F) in He. unfold e_ref, Proof_Arena.bsize in He. simpl in He. lia.
      * eapply IH; eauto.
Qed.

Lemma AR_invalid gx a es c : AR gx a es -> (forall e, In e es -> e_ref e <> c) ->
  exists p, clause_len HL a c = Panic p.
Proof.
  intros (bs & HB & -> & _) Hn. apply (clause_len_invalid HL a bs c HB).
  intros bs1 b bs2 -> ->. apply (Hn (length (buf bs1), b_hdr b, b_lits b)); [|reflexivity].
  destruct HB as [_ F]. apply Forall_app in F as [F1 _]. rewrite ents_app by auto. apply in_elt.
Qed.

Lemma AR_used a es : AR true a es -> utilization a = Ret (length (a_buffer a), used_words HL es).
Proof.
  intros (bs & HB & -> & G & _). specialize (G eq_refl). pose proof (waste_used bs 0 (proj2 HB)) as W.
  unfold utilization. rewrite G, (proj1 HB). destruct (Nat.leb_spec (waste bs) (length (buf bs))); [|lia].
  do 2 f_equal. lia.
Qed.
End Hist.
