(** C24-C31: the clause arena. *)
From Coq Require Import NArith List Bool Arith Lia.
From Verif Require Import Model_Base Model_Lit Model_Header Model_Arena Model_Prop Model_Solver Spec
  Drivers_Arena Proof_Base Proof_Header Proof_Arena Proof_ArenaGc Proof_ArenaHist.
Import ListNotations.

Lemma Forall2_fun {A B} (R : A -> B -> Prop) l m1 m2 :
  (forall x y1 y2, R x y1 -> R x y2 -> y1 = y2) -> Forall2 R l m1 -> Forall2 R l m2 -> m1 = m2.
Proof. intros HR F. revert m2; induction F; intros m2 F2; inversion F2; subst; auto. f_equal; eauto. Qed.

Lemma ahist_inv dd HL hook a es : hook_ok HL hook -> ahist dd HL hook a es -> AR HL (negb dd) a es.
Proof.
  intros Hk H. induction H.
  - apply AR_empty.
  - unfold arena_add_clause in H3. destruct (Nat.eqb_spec (length l) 0); [discriminate|]. cbn [negb] in H3.
    destruct ((LITIDX_MAX <? N.of_nat (length (a_buffer a)))%N || (HEADER_MASK <? N.of_nat (length l))%N) eqn:E; [discriminate|].
    apply orb_false_iff in E as [E1 E2]. apply N.ltb_ge in E1, E2.
    destruct (AR_add HL _ a es h l IHahist H0 H1 H2) as (a2 & E & HA); auto.
    { destruct l; simpl in *; congruence. }
    unfold arena_add_clause in E. destruct (Nat.eqb_spec (length l) 0); [contradiction|]. cbn [negb] in E.
    apply N.ltb_ge in E1, E2. rewrite E1, E2 in E. cbn [orb] in E. inv H3. inv E. exact HA.
  - apply (AR_add_full HL _ _ _ _ _ _ IHahist) in H0. subst. auto.
  - destruct (AR_set_header HL _ _ _ _ _ _ h' IHahist H0 H1 H2) as (a2 & E & HA). congruence.
  - destruct (AR_set_lits HL _ _ _ _ _ _ l' IHahist H0 H1 H2) as (a2 & E & HA). congruence.
  - destruct (AR_shrink HL _ _ _ _ _ _ _ n Hk IHahist H0 H1) as (a2 & E & HA). congruence.
  - destruct l as [|x r].
    + destruct dd; [|exfalso; apply (H1 eq_refl); auto].
      destruct (AR_delete_dead HL _ _ _ _ IHahist H0) as (a2 & E & HA).
      rewrite H2 in E. inv E. exact HA.
    + destruct (AR_delete HL _ _ _ _ _ _ IHahist H0) as (a2 & E & HA); congruence.
  - destruct (AR_collect HL _ _ _ IHahist H0) as (a2 & g2 & es2 & E & HA & F & _).
    rewrite H1 in E. inv E. assert (es' = es2).
    { eapply Forall2_fun; [|exact H2|exact F]. intros e [[c1 h1] l1] [[c2 h2] l2] (A & B & C) (A' & B' & C').
      unfold e_ref, e_hdr, e_lits in *. simpl in *. congruence. }
    subst. destruct dd; auto. apply (AR_weaken HL true). auto.
Qed.

Lemma es_upd_in c h l es e : In e (es_upd c h l es) <->
  (e = (c, h, l) /\ exists e0, In e0 es /\ e_ref e0 = c) \/ (In e es /\ e_ref e <> c).
Proof.
  unfold es_upd. rewrite in_map_iff. split.
  - intros (e0 & E & Hi). destruct (Nat.eqb_spec (e_ref e0) c); subst; eauto 6.
  - intros [(-> & e0 & Hi & E)|(Hi & Hn)].
    + exists e0. split; auto. destruct (Nat.eqb_spec (e_ref e0) c); congruence.
    + exists e. split; auto. destruct (Nat.eqb_spec (e_ref e) c); congruence.
Qed.

Definition reads (HL : nat) (a : arena) (c : cref) (h l : list N) : Prop :=
  arena_header HL a c = Ret h /\ arena_lits HL a c = Ret l /\ clause_len HL a c = Ret (length l).

(** In every history, every reference reads exactly the expected header and
    literals; references are distinct; the literals lie inside the buffer. *)
Theorem arena_contents dd HL hook a es : hook_ok HL hook -> ahist dd HL hook a es ->
  NoDup (map e_ref es) /\
  forall c h l, In (c, h, l) es -> reads HL a c h l /\ c + HL + 1 + length l <= length (a_buffer a).
Proof.
  intros Hk H. apply ahist_inv in H; auto. split; [eapply AR_nodup; eauto|].
  intros c h l Hi. split; [split; [|split]|].
  - eapply AR_header; eauto.
  - eapply AR_lits; eauto.
  - eapply AR_len; eauto.
  - apply (AR_words HL _ _ _ _ _ _ H Hi).
Qed.

(** C24: [add_clause] with a nonempty clause and room left returns a fresh
    reference; that reference reads the given header and literals, and every
    earlier reference reads what it read before. *)
Theorem arena_add_reads_back dd HL hook a es h l : hook_ok HL hook -> ahist dd HL hook a es ->
  length h = HL -> Forall clear h -> Forall clear l -> l <> [] ->
  (N.of_nat (length (a_buffer a)) < 2 ^ 32)%N -> (N.of_nat (length l) < 2 ^ 31)%N ->
  exists c a', arena_add_clause a h l = Ret (Some c, a') /\
    ahist dd HL hook a' (es ++ [(c, h, l)]) /\
    (forall e, In e es -> e_ref e <> c) /\
    reads HL a' c h l /\
    (forall c' h' l', reads HL a c' h' l' -> In (c', h', l') es -> reads HL a' c' h' l').
Proof.
  intros Hk H Hh Hc Hl Hne B1 B2. pose proof (ahist_inv _ _ _ _ _ Hk H) as HA.
  destruct (AR_add HL _ a es h l HA Hh Hc Hl Hne) as (a' & E & HA').
  { change (2 ^ 32)%N with 4294967296%N in B1. unfold LITIDX_MAX. lia. }
  { change (2 ^ 31)%N with 2147483648%N in B2. unfold HEADER_MASK. lia. }
  assert (H' : ahist dd HL hook a' (es ++ [(length (a_buffer a), h, l)])) by (eapply ah_add; eauto).
  exists (length (a_buffer a)), a'. split; [exact E|]. split; [exact H'|].
  destruct (arena_contents _ _ _ _ _ Hk H') as (ND & R). split; [|split].
  - intros e He Ee. rewrite map_app in ND. apply NoDup_remove_2 in ND. apply ND. rewrite app_nil_r.
    unfold e_ref at 1. cbn [fst]. rewrite <- Ee. apply in_map. exact He.
  - apply R. apply in_elt.
  - intros c' h' l' _ Hi. apply R. apply in_app_iff. auto.
Qed.

(** [add_clause] refuses exactly the empty clause (panic), a full buffer and an
    oversized clause (error), and then changes nothing. *)
Theorem arena_add_refuses a h l :
  (l = [] -> arena_add_clause a h l = Panic PAssert) /\
  (l <> [] -> (2 ^ 32 <= N.of_nat (length (a_buffer a)) \/ 2 ^ 31 <= N.of_nat (length l))%N ->
   arena_add_clause a h l = Ret (None, a)).
Proof.
  split.
  - intros ->. reflexivity.
  - intros Hne Hb. unfold arena_add_clause. destruct (Nat.eqb_spec (length l) 0).
    { destruct l; simpl in *; congruence. }
    cbn [negb]. change (2 ^ 32)%N with 4294967296%N in Hb. change (2 ^ 31)%N with 2147483648%N in Hb.
    assert (E : ((LITIDX_MAX <? N.of_nat (length (a_buffer a)))%N || (HEADER_MASK <? N.of_nat (length l))%N) = true).
    { apply orb_true_iff. unfold LITIDX_MAX, HEADER_MASK. rewrite !N.ltb_lt. lia. }
    rewrite E. reflexivity.
Qed.

(** Writing through [header_mut] / [lits_mut] changes only that header / these
    literals. *)
Theorem arena_write_local dd HL hook a es c h l : hook_ok HL hook -> ahist dd HL hook a es -> In (c, h, l) es ->
  (forall h', length h' = HL -> Forall clear h' ->
     exists a', arena_set_header HL a c h' = Ret a' /\ ahist dd HL hook a' (es_upd c h' l es) /\
       reads HL a' c h' l /\
       forall c2 h2 l2, In (c2, h2, l2) es -> c2 <> c -> reads HL a' c2 h2 l2) /\
  (forall l', length l' = length l -> Forall clear l' ->
     exists a', arena_set_lits HL a c l' = Ret a' /\ ahist dd HL hook a' (es_upd c h l' es) /\
       reads HL a' c h l' /\
       forall c2 h2 l2, In (c2, h2, l2) es -> c2 <> c -> reads HL a' c2 h2 l2).
Proof.
  intros Hk H Hi. pose proof (ahist_inv _ _ _ _ _ Hk H) as HA. split.
  - intros h' Hh Hc. destruct (AR_set_header HL _ _ _ _ _ _ h' HA Hi Hh Hc) as (a' & E & _).
    assert (H' : ahist dd HL hook a' (es_upd c h' l es)) by (eapply ah_set_header; eauto).
    exists a'. split; auto. split; auto. destruct (arena_contents _ _ _ _ _ Hk H') as (_ & R). split.
    + apply R, es_upd_in. left. split; auto. exists (c, h, l). auto.
    + intros c2 h2 l2 Hi2 Hne. apply R, es_upd_in. right. auto.
  - intros l' Hl Hc. destruct (AR_set_lits HL _ _ _ _ _ _ l' HA Hi Hl Hc) as (a' & E & _).
    assert (H' : ahist dd HL hook a' (es_upd c h l' es)) by (eapply ah_set_lits; eauto).
    exists a'. split; auto. split; auto. destruct (arena_contents _ _ _ _ _ Hk H') as (_ & R). split.
    + apply R, es_upd_in. left. split; auto. exists (c, h, l). auto.
    + intros c2 h2 l2 Hi2 Hne. apply R, es_upd_in. right. auto.
Qed.

(** C25: deleting a clause makes exactly that reference read as empty. *)
Theorem arena_delete_only dd HL hook a es c h l : hook_ok HL hook -> ahist dd HL hook a es ->
  In (c, h, l) es -> (dd = false -> l <> []) ->
  exists a', arena_delete_clause HL a c = Ret a' /\
    ahist dd HL hook a' (es_upd c h [] es) /\
    reads HL a' c h [] /\
    forall c2 h2 l2, In (c2, h2, l2) es -> c2 <> c -> reads HL a' c2 h2 l2.
Proof.
  intros Hk H Hi Hd. pose proof (ahist_inv _ _ _ _ _ Hk H) as HA.
  assert (E : exists a', arena_delete_clause HL a c = Ret a').
  { destruct l as [|x r].
    - apply AR_weaken in HA. destruct (AR_delete_dead HL _ _ _ _ HA Hi) as (a' & E & _). eauto.
    - destruct (AR_delete HL _ _ _ _ _ _ HA Hi) as (a' & E & _); [discriminate|eauto]. }
  destruct E as (a' & E). assert (H' : ahist dd HL hook a' (es_upd c h [] es)) by (eapply ah_delete; eauto).
  exists a'. split; auto. split; auto. destruct (arena_contents _ _ _ _ _ Hk H') as (_ & R). split.
  - apply R, es_upd_in. left. split; auto. exists (c, h, l). auto.
  - intros c2 h2 l2 Hi2 Hne. apply R, es_upd_in. right. auto.
Qed.

(** C26: iteration visits exactly the live clauses, once each, in insertion
    order. *)
Lemma iterate_from HL gx a es2 : forall es1 c, AR HL gx a (es1 ++ es2) ->
  match c with None => es1 = [] | Some c => exists es0 e, es1 = es0 ++ [e] /\ c = e_ref e end ->
  forall fuel, length es2 < fuel -> iterate HL fuel a c = Ret (map e_ref (filter e_live es2)).
Proof.
  assert (Step : forall es2 es1 c, AR HL gx a (es1 ++ es2) ->
    match c with None => es1 = [] | Some c => exists es0 e, es1 = es0 ++ [e] /\ c = e_ref e end ->
    next_clause HL a c = Ret (first_live_e es2)).
  { clear. intros es2 es1 [c|] HA Hc.
    - destruct Hc as (es0 & e & -> & ->). rewrite <- app_assoc in HA. eapply AR_next_some; eauto.
    - subst. eapply AR_next_none; eauto. }
  assert (Split : forall es, match first_live_e es with
     | None => filter e_live es = []
     | Some c => exists xs e ys, es = xs ++ e :: ys /\ c = e_ref e /\ filter e_live es = e :: filter e_live ys
     end).
  { induction es as [|e es IH]; simpl; auto. destruct (e_live e) eqn:El.
    - exists [], e, es. auto.
    - destruct (first_live_e es); auto. destruct IH as (xs & e' & ys & -> & -> & ->). exists (e :: xs), e', ys. auto. }
  remember (length es2) as n eqn:En. revert es2 En. induction n as [n IH] using lt_wf_ind.
  intros es2 -> es1 c HA Hc fuel Hf. destruct fuel as [|fuel]; [lia|]. cbn [iterate].
  rewrite (Step es2 es1 c HA Hc). cbn [bind]. specialize (Split es2). destruct (first_live_e es2) as [c'|].
  - destruct Split as (xs & e & ys & -> & -> & ->). rewrite app_length in *. simpl in *.
    rewrite (IH (length ys)) with (es1 := es1 ++ xs ++ [e]) (es2 := ys); auto; try lia.
    + rewrite <- !app_assoc. simpl. exact HA.
    + exists (es1 ++ xs), e. rewrite app_assoc. auto.
  - rewrite Split. reflexivity.
Qed.

Theorem arena_iterate_all dd HL hook a es : hook_ok HL hook -> ahist dd HL hook a es ->
  forall fuel, length es < fuel -> iterate HL fuel a None = Ret (map e_ref (filter e_live es)).
Proof.
  intros Hk H fuel Hf. apply ahist_inv in H; auto. apply (iterate_from HL (negb dd) a es [] None); auto.
Qed.

(** One step: the clause after [c], live or deleted meanwhile, is the first live
    clause inserted after it. *)
Theorem arena_next_after dd HL hook a es1 e es2 : hook_ok HL hook -> ahist dd HL hook a (es1 ++ e :: es2) ->
  next_clause HL a (Some (e_ref e)) = Ret (hd_error (map e_ref (filter e_live es2))).
Proof.
  intros Hk H. apply ahist_inv in H; auto. rewrite (AR_next_some HL _ _ _ _ _ H). f_equal.
  clear. induction es2 as [|x r IH]; auto. simpl. destruct (e_live x); auto.
Qed.

(** C27: collection keeps exactly the live clauses, in order, with headers and
    literals; the map sends live references to their new place and deleted ones
    to [None]; afterwards nothing is garbage.  The buffer must be shorter than
    2^32 words (16 GiB). *)
Theorem arena_collect_preserves dd HL hook a es : hook_ok HL hook -> ahist dd HL hook a es ->
  (N.of_nat (length (a_buffer a)) < 2 ^ 32)%N ->
  exists a' gaps es', collect_garbage HL a = Ret (a', gaps) /\
    ahist dd HL hook a' es' /\
    map (fun e => (e_hdr e, e_lits e)) es' = map (fun e => (e_hdr e, e_lits e)) (filter e_live es) /\
    (forall c h l, In (c, h, l) es -> l <> [] ->
       exists c', gc_update gaps c = Ret (Some c') /\ In (c', h, l) es' /\ reads HL a' c' h l) /\
    (forall c h, In (c, h, []) es -> gc_update gaps c = Ret None) /\
    utilization a' = Ret (length (a_buffer a'), length (a_buffer a')).
Proof.
  intros Hk H Hsz. pose proof (ahist_inv _ _ _ _ _ Hk H) as HA.
  destruct (AR_collect HL _ _ _ HA Hsz) as (a' & gaps & es' & E & HA' & F & D).
  assert (H' : ahist dd HL hook a' es') by (eapply ah_collect; eauto).
  exists a', gaps, es'. split; auto. split; auto. split; [|split; [|split]].
  - clear - F. induction F; simpl; auto. destruct H as (_ & A & B). rewrite A, B. f_equal; auto.
  - intros c h l Hi Hne. assert (Hin : In (c, h, l) (filter e_live es)).
    { apply filter_In. split; auto. unfold e_live, e_lits. simpl. destruct l; congruence. }
    assert (G : exists e', In e' es' /\ gc_update gaps c = Ret (Some (e_ref e')) /\ e_hdr e' = h /\ e_lits e' = l).
    { clear - F Hin. induction F; [contradiction|]. destruct Hin as [->|Hin].
      - exists y. split; [left; auto|]. exact H.
      - destruct (IHF Hin) as (e' & A & B). exists e'. split; [right|]; auto. }
    destruct G as ([[c' h'] l'] & Hi' & G1 & G2 & G3). unfold e_ref, e_hdr, e_lits in *. simpl in *. subst.
    exists c'. split; auto. split; auto. apply (arena_contents _ _ _ _ _ Hk H'); auto.
  - intros c h Hi. apply (D _ Hi). reflexivity.
  - rewrite (AR_used HL a' es' HA'). f_equal. f_equal. destruct HA' as (bs & HB & Ees & Eg & _).
    pose proof (waste_used HL bs 0 (proj2 HB)) as W. rewrite <- Ees in W. rewrite (proj1 HB).
    unfold collect_garbage in E. destruct (next_clause HL a None); [|discriminate|discriminate]. cbn [bind] in E.
    destruct (gc_loop _ _ _ _ _ _ _) as [[[[a1 wo] ex] gs]| |]; [|discriminate|discriminate]. cbn [bind] in E. inv E.
    cbn [a_garbage] in Eg. specialize (Eg eq_refl). lia.
Qed.

(** C28: a reference that is not one of the clauses' makes every accessor panic. *)
Theorem arena_invalid_detected dd HL hook a es c : hook_ok HL hook -> ahist dd HL hook a es ->
  (forall e, In e es -> e_ref e <> c) ->
  exists p, clause_len HL a c = Panic p /\ arena_lits HL a c = Panic p /\ arena_header HL a c = Panic p /\
    arena_delete_clause HL a c = Panic p /\ next_clause HL a (Some c) = Panic p /\
    (forall h, arena_set_header HL a c h = Panic p) /\ (forall l, arena_set_lits HL a c l = Panic p) /\
    (forall n, 0 < n -> arena_shrink_clause HL hook a c n = Panic p).
Proof.
  intros Hk H Hn. apply ahist_inv in H; auto. destruct (AR_invalid HL _ _ _ c H Hn) as (p & E). exists p.
  unfold arena_lits, arena_header, arena_delete_clause, next_clause, arena_set_header, arena_set_lits, arena_shrink_clause.
  rewrite E. cbn [bind]. do 7 (split; [auto|]). intros n Hp. destruct (Nat.eqb_spec n 0); [lia|]. reflexivity.
Qed.

(** C29: shrinking keeps the prefix of that clause and every other clause. *)
Theorem arena_shrink_prefix dd HL hook a es c h l n : hook_ok HL hook -> ahist dd HL hook a es ->
  In (c, h, l) es -> 1 <= n <= length l ->
  exists a', arena_shrink_clause HL hook a c n = Ret a' /\
    ahist dd HL hook a' (es_upd c (hook h (length l) n) (firstn n l) es) /\
    reads HL a' c (hook h (length l) n) (firstn n l) /\
    forall c2 h2 l2, In (c2, h2, l2) es -> c2 <> c -> reads HL a' c2 h2 l2.
Proof.
  intros Hk H Hi Hn. pose proof (ahist_inv _ _ _ _ _ Hk H) as HA.
  destruct (AR_shrink HL _ _ _ _ _ _ _ n Hk HA Hi Hn) as (a' & E & _).
  assert (H' : ahist dd HL hook a' (es_upd c (hook h (length l) n) (firstn n l) es)) by (eapply ah_shrink; eauto).
  exists a'. split; auto. split; auto. destruct (arena_contents _ _ _ _ _ Hk H') as (_ & R). split.
  - apply R, es_upd_in. left. split; auto. exists (c, h, l). auto.
  - intros c2 h2 l2 Hi2 Hne. apply R, es_upd_in. right. auto.
Qed.

Theorem arena_shrink_panics dd HL hook a es c h l n : hook_ok HL hook -> ahist dd HL hook a es ->
  In (c, h, l) es -> n = 0 \/ length l < n -> arena_shrink_clause HL hook a c n = Panic PAssert.
Proof.
  intros Hk H Hi Hn. apply ahist_inv in H; auto. unfold arena_shrink_clause.
  destruct (Nat.eqb_spec n 0); [reflexivity|]. cbn [negb]. rewrite (AR_len HL _ _ _ _ _ _ H Hi). cbn [bind].
  destruct (Nat.leb_spec n (length l)); [lia|reflexivity].
Qed.

(** C31, without deleting a clause twice: [used] is exactly the number of words
    of live clauses.  See [utilization_exact_refuted] for double deletion. *)
Theorem utilization_exact_partial HL hook a es : hook_ok HL hook -> ahist false HL hook a es ->
  utilization a = Ret (length (a_buffer a), used_words HL es).
Proof. intros Hk H. apply AR_used. apply (ahist_inv false HL hook); auto. Qed.

Theorem utilization_exact_refuted : exists a es,
  ahist true 1 (fun h _ _ => h) a es /\ used_words 1 es = 3 /\
  utilization a = Ret (8, 1).
Proof.
  assert (C : forall xs, forallb (fun w => (w <? 2147483648)%N) xs = true -> Forall clear xs).
  { intros xs E. apply Forall_forall. intros x Hx. rewrite forallb_forall in E. apply E, N.ltb_lt in Hx. exact Hx. }
  do 2 eexists. split; [|split].
  - eapply (ah_delete _ _ _ _ _ 3 [7]%N []); [
      eapply (ah_delete _ _ _ _ _ 3 [7]%N [2; 4; 6]%N); [
        eapply (ah_add _ _ _ _ _ [7]%N [2; 4; 6]%N); [
          eapply (ah_add _ _ _ _ _ [9]%N [5]%N); [apply ah_new| | | | ] | | | | ] | | | ] | | | ];
    try (apply C; vm_compute; reflexivity); try (vm_compute; reflexivity); try discriminate;
    vm_compute; auto.
  - vm_compute. reflexivity.
  - vm_compute. reflexivity.
Qed.

(** The header hook of [LongHeader] satisfies [hook_ok]. *)
Definition long_hook (ws : list N) (o n : nat) : list N :=
  lh_words (lh_shrink_clause (lh_of_words ws) (N.of_nat o) (N.of_nat n)).

Theorem long_hook_ok : hook_ok 2 long_hook.
Proof.
  intros h o n Hl Hc. destruct h as [|a [|b [|]]]; simpl in Hl; try discriminate.
  inversion Hc as [|? ? Ha Hc']; subst. inversion Hc' as [|? ? Hb _]; subst.
  split; [reflexivity|]. unfold long_hook, lh_words, lh_of_words, lh_shrink_clause, lh_set_search_pos.
  destruct (_ <=? _)%N; simpl; repeat constructor; auto. 
Qed.

(** C30, where it holds: if the stored position is still a position among the
    non-watched literals of the shrunk clause, or is at least the new length, it
    is a valid position afterwards.  Missing are the positions [n-2] and [n-1]
    for new length [n]; see [shrink_search_pos_refuted]. *)
Theorem shrink_search_pos_partial dd a es c h l n : ahist dd 2 long_hook a es -> In (c, h, l) es ->
  3 <= n <= length l ->
  (lh_search_pos (lh_of_words h) + 2 < N.of_nat n \/ N.of_nat n <= lh_search_pos (lh_of_words h))%N ->
  exists a' h', long_shrink a c n = Ret a' /\ long_header_of a' c = Ret h' /\
    (lh_search_pos h' + 2 < N.of_nat n)%N.
Proof.
  intros H Hi Hn Hp.
  destruct (arena_shrink_prefix dd 2 long_hook a es c h l n long_hook_ok H Hi) as (a' & E & H' & (R & _) & _); [lia|].
  exists a', (lh_of_words (long_hook h (length l) n)). split; [exact E|]. split.
  - unfold long_header_of, LONG_HEADER_LEN. rewrite R. reflexivity.
  - unfold long_hook, lh_words, lh_shrink_clause.
    destruct (N.leb_spec (N.of_nat n) (lh_search_pos (lh_of_words h))) as [Hle|Hgt].
    + cbn. lia.
    + destruct (lh_of_words h) as [w0 w1]. cbn in *. destruct Hp; lia.
Qed.

(** C30 fails: a clause of six literals whose search position was moved to 2 by
    propagation and that is then shrunk to four literals makes the next
    propagation index out of bounds. *)
Definition c30_state : res prop :=
  let* (_, _, p1) := add_clause_verbatim true ctx_empty (prop_resize prop_empty 6) lh_new_input [1; 3; 5; 7; 9; 11]%N in
  let* p2 := assign_decision true p1 4%N in
  let* p3 := assign_decision true p2 6%N in
  let* p4 := assign_decision true p3 0%N in
  let* (_, p5, _) := propagate true ctx_empty p4 in
  Ret p5.

Theorem shrink_search_pos_refuted : exists p c l a p',
  c30_state = Ret p /\ long_lits (p_long p) c = Ret l /\ length l = 6 /\
  long_shrink (p_long p) c 4 = Ret a /\
  assign_decision true (p_set_long p a) 8%N = Ret p' /\
  propagate true ctx_empty p' = Panic PBounds.
Proof.
  do 5 eexists. split; [vm_compute; reflexivity|]. split; [instantiate (2 := 0); vm_compute; reflexivity|].
  do 3 (split; [vm_compute; reflexivity|]). vm_compute. reflexivity.
Qed.

(** A history with a zero-word header, deletion, shrinking and collection. *)
Example ahist_ex : exists a es,
  ahist false 0 (fun h _ _ => h) a es /\ map e_lits es = [[9; 3]; [4]; [6; 8]]%N.
Proof.
  assert (C : forall xs, forallb (fun w => (w <? 2147483648)%N) xs = true -> Forall clear xs).
  { intros xs E. apply Forall_forall. intros x Hx. rewrite forallb_forall in E. apply E, N.ltb_lt in Hx. exact Hx. }
  do 2 eexists. split.
  - eapply (ah_add _ _ _ _ _ [] [6; 8]%N); [
      eapply (ah_collect _ _ _ _ _ _ _ [(0, [], [9; 3]%N); (3, [], [4]%N)]); [
        eapply (ah_delete _ _ _ _ _ 4 [] [5; 6; 7]%N); [
          eapply (ah_shrink _ _ _ _ _ 0 [] [9; 3; 11]%N 2); [
            eapply (ah_set_lits _ _ _ _ _ 0 [] [2; 4; 6]%N [9; 3; 11]%N); [
              eapply (ah_add _ _ _ _ _ [] [4]%N); [
                eapply (ah_add _ _ _ _ _ [] [5; 6; 7]%N); [
                  eapply (ah_add _ _ _ _ _ [] [2; 4; 6]%N); [apply ah_new| | | | ] | | | | ] | | | | ]
              | | | | ] | | | ] | | | ] | | | ] | | | | ];
    try (apply C; vm_compute; reflexivity); try (vm_compute; reflexivity); try discriminate;
    try (vm_compute; auto; fail); try (simpl; lia).
  - reflexivity.
Qed.

Print Assumptions arena_contents.
Print Assumptions arena_add_reads_back.
Print Assumptions arena_add_refuses.
Print Assumptions arena_write_local.
Print Assumptions arena_delete_only.
Print Assumptions arena_iterate_all.
Print Assumptions arena_next_after.
Print Assumptions arena_collect_preserves.
Print Assumptions arena_invalid_detected.
Print Assumptions arena_shrink_prefix.
Print Assumptions arena_shrink_panics.
Print Assumptions utilization_exact_partial.
Print Assumptions utilization_exact_refuted.
Print Assumptions shrink_search_pos_partial.
Print Assumptions shrink_search_pos_refuted.
