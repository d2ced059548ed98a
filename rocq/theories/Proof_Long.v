(** The arena of long clauses at the level of its contents. *)
From Coq Require Import NArith List Bool Arith Lia ZifyN ZifyNat ZifyBool.
From Verif Require Import Model_Base Model_Lit Model_Header Model_Arena Spec Drivers_Arena Proof_Base Proof_Header
  Proof_Arena Proof_ArenaGc Proof_ArenaHist.
Import ListNotations.

Definition lent := (nat * long_header * list N)%type.
Definition le_ref (e : lent) : nat := fst (fst e).
Definition le_hdr (e : lent) : long_header := snd (fst e).
Definition le_lits (e : lent) : list N := snd e.
Definition le_live (e : lent) : bool := match le_lits e with [] => false | _ => true end.
Definition le_words (e : lent) : entry := (le_ref e, lh_words (le_hdr e), le_lits e).

Definition LR (a : arena) (es : list lent) : Prop := AR 2 true a (map le_words es).

Definition les_upd (c : nat) (h : long_header) (l : list N) (es : list lent) : list lent :=
  map (fun e => if Nat.eqb (le_ref e) c then (c, h, l) else e) es.

Lemma of_words h : lh_of_words (lh_words h) = h.
Proof. destruct h; reflexivity. Qed.

Lemma lew_in c h l es : In (c, h, l) es -> In (c, lh_words h, l) (map le_words es).
Proof. intro H. apply in_map_iff. exists (c, h, l). auto. Qed.

Lemma les_upd_words c h l es : map le_words (les_upd c h l es) = es_upd c (lh_words h) l (map le_words es).
Proof.
  unfold les_upd, es_upd. rewrite !map_map. apply map_ext. intros [[c' h'] l'].
  unfold le_words, e_ref, le_ref, le_hdr, le_lits. cbn [fst snd]. destruct (c' =? c); reflexivity.
Qed.

Lemma les_upd_in c h l es e : In e (les_upd c h l es) <->
  (e = (c, h, l) /\ exists e0, In e0 es /\ le_ref e0 = c) \/ (In e es /\ le_ref e <> c).
Proof.
  unfold les_upd. rewrite in_map_iff. split.
  - intros (e0 & E & Hi). destruct (Nat.eqb_spec (le_ref e0) c); subst; eauto 6.
  - intros [(-> & e0 & Hi & E)|(Hi & Hn)].
    + exists e0. split; auto. destruct (Nat.eqb_spec (le_ref e0) c); congruence.
    + exists e. split; auto. destruct (Nat.eqb_spec (le_ref e) c); congruence.
Qed.

Lemma les_upd_refs c h l es : map le_ref (les_upd c h l es) = map le_ref es.
Proof.
  unfold les_upd. rewrite map_map. apply map_ext. intro e. unfold le_ref.
  destruct (Nat.eqb_spec (fst (fst e)) c); auto.
Qed.

Lemma les_upd_length c h l es : length (les_upd c h l es) = length es.
Proof. apply map_length. Qed.

Section LR.
Variables (a : arena) (es : list lent).
Hypothesis H : LR a es.

Lemma LR_nodup : NoDup (map le_ref es).
Proof. pose proof (AR_nodup _ _ _ _ H) as N. rewrite map_map in N. exact N. Qed.

Lemma LR_fun c h l h' l' : In (c, h, l) es -> In (c, h', l') es -> h = h' /\ l = l'.
Proof.
  pose proof LR_nodup as N. clear H. induction es as [|e r IH]; intros H1 H2; [contradiction|].
  simpl in N. inversion N; subst.
  destruct H1 as [->|H1], H2 as [E2|H2]; auto.
  - inv E2; auto.
  - exfalso. apply H3. apply in_map_iff. exists (c, h', l'). auto.
  - subst. exfalso. apply H3. apply in_map_iff. exists (c, h, l). auto.
Qed.

Lemma LR_lits c h l : In (c, h, l) es -> long_lits a c = Ret l.
Proof. intro Hi. eapply AR_lits; eauto. apply lew_in; eauto. Qed.
Lemma LR_lits_rev c l : long_lits a c = Ret l -> exists h, In (c, h, l) es.
Proof.
  intro E. destruct (in_dec Nat.eq_dec c (map le_ref es)) as [Hi|Hn].
  - apply in_map_iff in Hi as ([[c' h] l'] & Ec & Hi). cbn in Ec. subst c'. exists h. rewrite (LR_lits _ _ _ Hi) in E. inversion E; subst; auto.
  - destruct (AR_invalid _ _ _ _ c H) as [p Ep].
    + intros e He Q. apply Hn. apply in_map_iff in He as (e' & <- & He'). apply in_map_iff. exists e'. split; auto.
    + unfold long_lits, arena_lits in E. unfold LONG_HEADER_LEN in E. rewrite Ep in E. discriminate.
Qed.
Lemma LR_len c h l : In (c, h, l) es -> long_len a c = Ret (length l).
Proof. intro Hi. eapply AR_len; eauto. apply lew_in; eauto. Qed.
Lemma LR_header c h l : In (c, h, l) es -> long_header_of a c = Ret h.
Proof.
  intro Hi. unfold long_header_of, LONG_HEADER_LEN. rewrite (AR_header _ _ _ _ _ _ _ H (lew_in _ _ _ _ Hi)). simpl.
  destruct h; reflexivity.
Qed.

Lemma LR_ok c h l : In (c, h, l) es -> lh_ok h /\ Forall clear l /\ clear (N.of_nat (length l)).
Proof.
  intro Hi. destruct (AR_words _ _ _ _ _ _ _ H (lew_in _ _ _ _ Hi)) as (_ & A & B & C & _).
  split; auto. destruct h as [w0 w1]. inversion A as [|? ? A1 A2]; subst. inversion A2; subst. split; assumption.
Qed.

Lemma LR_set_header c h l h' : In (c, h, l) es -> lh_ok h' ->
  exists a', long_set_header a c h' = Ret a' /\ LR a' (les_upd c h' l es).
Proof.
  intros Hi Hh. unfold long_set_header, LONG_HEADER_LEN.
  destruct (AR_set_header 2 _ _ _ _ _ _ (lh_words h') H (lew_in _ _ _ _ Hi)) as (a' & E & HA).
  - reflexivity.
  - destruct h' as [w0 w1]. destruct Hh. repeat constructor; assumption.
  - exists a'. split; auto. unfold LR. rewrite les_upd_words. exact HA.
Qed.

Lemma LR_set_lits c h l l' : In (c, h, l) es -> length l' = length l -> Forall clear l' ->
  exists a', long_set_lits a c l' = Ret a' /\ LR a' (les_upd c h l' es).
Proof.
  intros Hi Hl Hc. unfold long_set_lits, LONG_HEADER_LEN.
  destruct (AR_set_lits 2 _ _ _ _ _ _ l' H (lew_in _ _ _ _ Hi) Hl Hc) as (a' & E & HA).
  exists a'. split; auto. unfold LR. rewrite les_upd_words. exact HA.
Qed.

Lemma LR_delete c h l : In (c, h, l) es -> l <> [] ->
  exists a', long_delete a c = Ret a' /\ LR a' (les_upd c h [] es).
Proof.
  intros Hi Hl. unfold long_delete, LONG_HEADER_LEN.
  destruct (AR_delete 2 _ _ _ _ _ _ H (lew_in _ _ _ _ Hi) Hl) as (a' & E & HA).
  exists a'. split; auto. unfold LR. rewrite les_upd_words. exact HA.
Qed.

Lemma LR_add h l : lh_ok h -> Forall clear l -> l <> [] ->
  (exists a', long_add_clause a h l = Ret (Some (length (a_buffer a)), a') /\
    LR a' (es ++ [(length (a_buffer a), h, l)])) \/
  long_add_clause a h l = Ret (None, a) /\ (LITIDX_MAX < N.of_nat (length (a_buffer a)) \/ HEADER_MASK < N.of_nat (length l))%N.
Proof.
  intros Hh Hc Hne. unfold long_add_clause.
  destruct ((LITIDX_MAX <? N.of_nat (length (a_buffer a)))%N || (HEADER_MASK <? N.of_nat (length l))%N) eqn:B.
  - right. unfold arena_add_clause. destruct (Nat.eqb_spec (length l) 0).
    { destruct l; simpl in *; congruence. }
    rewrite B. split; [reflexivity|]. apply orb_true_iff in B. rewrite !N.ltb_lt in B. exact B.
  - left. apply orb_false_iff in B as [B1 B2]. apply N.ltb_ge in B1, B2.
    destruct (AR_add 2 _ a _ (lh_words h) l H) as (a' & E & HA); auto.
    + destruct h as [w0 w1]. destruct Hh. repeat constructor; assumption.
    + exists a'. split; auto. unfold LR. rewrite map_app. exact HA.
Qed.

Lemma LR_fresh e : In e es -> le_ref e <> length (a_buffer a).
Proof.
  intros He E. destruct e as [[c h] l]. apply lew_in in He.
  destruct (AR_words _ _ _ _ _ _ _ H He) as (_ & _ & _ & _ & B). unfold le_ref in E. simpl in E. lia.
Qed.

Lemma LR_bound : length es <= length (a_buffer a).
Proof.
  destruct H as (bs & HB & E & _). apply (f_equal (@length _)) in E. rewrite map_length in E.
  assert (L : forall o, length (ents 2 o bs) = length bs) by (clear; induction bs; intro; simpl; auto).
  rewrite (proj1 HB), E, L. destruct HB as [_ F]. clear - F. induction F; simpl; auto.
  rewrite buf_cons, app_length, (bwords_len 2) by auto. unfold bsize. lia.
Qed.
End LR.

Lemma LR_empty : LR arena_empty [].
Proof. apply AR_empty. Qed.

(** Iteration *)
Fixpoint first_live_l (es : list lent) : option nat :=
  match es with
  | [] => None
  | e :: r => if le_live e then Some (le_ref e) else first_live_l r
  end.

Lemma first_live_lw es : first_live_e (map le_words es) = first_live_l es.
Proof. induction es as [|e r IH]; auto. simpl. rewrite IH. reflexivity. Qed.

Lemma LR_next_none a es : LR a es -> long_next a None = Ret (first_live_l es).
Proof. intro H. unfold long_next, LONG_HEADER_LEN. rewrite (AR_next_none _ _ _ _ H), first_live_lw. reflexivity. Qed.

Lemma LR_next_some a es1 e es2 : LR a (es1 ++ e :: es2) ->
  long_next a (Some (le_ref e)) = Ret (first_live_l es2).
Proof.
  intro H. unfold LR in H. rewrite map_app in H. cbn [map] in H. unfold long_next, LONG_HEADER_LEN.
  pose proof (AR_next_some _ _ _ _ _ _ H) as E. rewrite first_live_lw in E. exact E.
Qed.

(** Garbage collection: [f] maps live references to their new place. *)
Lemma words_inv es es' : Forall2 (fun e e' => e_hdr e' = e_hdr e /\ e_lits e' = e_lits e) (map le_words es) es' ->
  exists les', es' = map le_words les' /\
    Forall2 (fun e e' => le_hdr e' = le_hdr e /\ le_lits e' = le_lits e) es les'.
Proof.
  revert es'; induction es as [|e r IH]; intros es' F; inversion F; subst.
  - exists []. auto.
  - destruct (IH _ H3) as (lr & -> & F'). destruct y as [[c h] l]. destruct H1 as [Eh El].
    unfold e_hdr, e_lits in *. simpl in *. subst.
    exists ((c, le_hdr e, le_lits e) :: lr). split; [reflexivity|]. constructor; auto.
Qed.

Lemma filter_words es : filter e_live (map le_words es) = map le_words (filter le_live es).
Proof. induction es as [|e r IH]; auto. simpl. rewrite IH. change (e_live (le_words e)) with (le_live e). destruct (le_live e); reflexivity. Qed.

Lemma LR_collect a es : LR a es -> (N.of_nat (length (a_buffer a)) < 4294967296)%N ->
  exists a' gaps es', long_collect a = Ret (a', gaps) /\ LR a' es' /\
    Forall2 (fun e e' => gc_update gaps (le_ref e) = Ret (Some (le_ref e')) /\
                         le_hdr e' = le_hdr e /\ le_lits e' = le_lits e)
      (filter le_live es) es' /\
    (forall e, In e es -> le_live e = false -> gc_update gaps (le_ref e) = Ret None).
Proof.
  intros H B. unfold long_collect, LONG_HEADER_LEN.
  destruct (AR_collect 2 _ _ _ H B) as (a' & gaps & es' & E & HA & F & D).
  rewrite filter_words in F.
  destruct (words_inv (filter le_live es) es') as (les' & -> & F').
  { eapply Forall2_imp; [|exact F]. intros x y (_ & A). exact A. }
  exists a', gaps, les'. split; auto. split; auto. split.
  - clear - F F'. revert F. induction F'; intro F; constructor; inversion F; subst; auto.
    match goal with X : gc_update _ _ = _ /\ _ |- _ => destruct X as (A & B) end. split; auto.
  - intros e He Hl. apply (D (le_words e)); auto. apply in_map. exact He.
Qed.
