(** The number of words of the clause arena: only learning makes it larger. *)
From Coq Require Import NArith List Bool Arith Lia ZifyN ZifyNat ZifyBool.
From Verif Require Import Model_Base Model_Lit Model_PartialAssignment Model_Header Model_Arena Model_MutScan Model_Prop
  Model_Heap Model_Vsids Model_Analysis Model_Solver Proof_Base.
Import ListNotations.

Definition awords (a : arena) : nat := length (a_buffer a).
Definition afull (a : arena) : Prop := (LITIDX_MAX < N.of_nat (awords a))%N.

Ltac inv_res H :=
  repeat (cbn [bind] in H;
    match type of H with
    | Ret _ = Ret _ => inversion H; subst; clear H
    | Panic _ = Ret _ => discriminate H
    | OutOfFuel = Ret _ => discriminate H
    | bind ?x _ = Ret _ => let E := fresh "E" in destruct x eqn:E; cbn [bind] in H; try discriminate H
    | context [match ?x with _ => _ end] => let E := fresh "E" in destruct x eqn:E; try discriminate H
    end).

Lemma write_words_length ws : forall buf pos, length (write_words buf pos ws) = length buf.
Proof. induction ws as [|w r IH]; intros buf pos; cbn [write_words]; auto. rewrite IH. apply upd_length. Qed.
Lemma set_header_size a c h a' : long_set_header a c h = Ret a' -> awords a' = awords a.
Proof. unfold long_set_header, arena_set_header. intro H. inv_res H. unfold awords; cbn [a_buffer]. rewrite ?write_words_length, ?upd_length. reflexivity. Qed.
Lemma set_lits_size a c ls a' : long_set_lits a c ls = Ret a' -> awords a' = awords a.
Proof. unfold long_set_lits, arena_set_lits. intro H. inv_res H. unfold awords; cbn [a_buffer]. rewrite ?write_words_length, ?upd_length. reflexivity. Qed.
Lemma delete_size a c a' : long_delete a c = Ret a' -> awords a' = awords a.
Proof. unfold long_delete, arena_delete_clause. intro H. inv_res H; auto. unfold awords; cbn [a_buffer]. rewrite ?write_words_length, ?upd_length. reflexivity. Qed.

Lemma gc_loop_size HL fuel : forall a r w x gs a' w' x' gs', gc_loop HL fuel a r w x gs = Ret (a', w', x', gs') -> awords a' = awords a.
Proof.
  induction fuel as [|f IH]; intros a r w x gs a' w' x' gs' H; cbn [gc_loop] in H; [discriminate|].
  destruct r as [c|]; [|inversion H; auto].
  destruct (next_clause HL a (Some c)); cbn [bind] in H; try discriminate.
  destruct (clause_len HL a c); cbn [bind] in H; try discriminate.
  destruct (read_words _ _ _); cbn [bind] in H; try discriminate. apply IH in H. rewrite H. apply write_words_length.
Qed.
Lemma collect_size a a' gs : long_collect a = Ret (a', gs) -> awords a' <= awords a.
Proof.
  unfold long_collect, collect_garbage. intro H. destruct (next_clause _ _ _); cbn [bind] in H; try discriminate.
  destruct (gc_loop _ _ _ _ _ _ _) as [[[[a1 w] x] g]| |] eqn:E; cbn [bind] in H; try discriminate. apply gc_loop_size in E.
  inversion H; subst. unfold awords in *. cbn [a_buffer]. rewrite firstn_length. lia.
Qed.
Lemma prop_collect_size dbg p p' : prop_collect_garbage dbg p = Ret p' -> awords (p_long p') <= awords (p_long p).
Proof.
  unfold prop_collect_garbage, collect_garbage_now. intro H. destruct (should_collect_garbage _); [|inversion H; auto].
  destruct (_ <=? _)%N; [|discriminate]. destruct (long_collect _) as [[a g]| |] eqn:E; cbn [bind] in H; try discriminate.
  destruct (trail_update_refs _ _); cbn [bind] in H; try discriminate. destruct (watches_update_refs _ _ _); cbn [bind] in H; try discriminate.
  inversion H; subst. cbn. eapply collect_size; eauto.
Qed.

(** ** Propagation *)
Lemma enable_size dbg p b p' : enable_watch_lists dbg p b = Ret p' -> p_long p' = p_long p.
Proof. unfold enable_watch_lists, rebuild_watch_lists. intro H. inv_res H; reflexivity. Qed.
Lemma binary_size dbg cl others : forall p p' r, binary_loop dbg p cl others = Ret (p', r) -> p_long p' = p_long p.
Proof.
  induction others as [|o r IH]; intros p p' x H; cbn [binary_loop] in H; [inversion H; auto|].
  destruct (pa_is_true _ _) as [[]| |]; cbn [bind] in H; try discriminate; [eauto|].
  destruct (pa_is_false _ _) as [[]| |]; cbn [bind] in H; try discriminate; [inversion H; auto|].
  destruct (assign_raw _ _ _ _) as [[v t]| |]; cbn [bind] in H; try discriminate. apply IH in H. exact H.
Qed.
Lemma body_size dbg wl st w st' act : watch_body dbg wl st w = Ret (st', act) -> awords (p_long (fst st')) = awords (p_long (fst st)).
Proof.
  destruct st as [p r]. unfold watch_body, store_search_pos. intro H.
  destruct (pa_is_true _ _) as [[]| |]; cbn [bind] in H; try discriminate; [inversion H; auto|].
  destruct (long_lits _ _); cbn [bind] in H; try discriminate.
  destruct (Nat.ltb _ _); [inversion H; auto|].
  destruct (long_header_of _ _); cbn [bind] in H; try discriminate.
  destruct (vget _ 0); cbn [bind] in H; try discriminate. destruct (vget _ 1); cbn [bind] in H; try discriminate.
  destruct (select_other _ _ _ _); cbn [bind] in H; try discriminate.
  destruct (pa_is_true _ _) as [[]| |]; cbn [bind] in H; try discriminate; [inversion H; auto|].
  destruct (search_loop _ _ _ _ _) as [[sp found]| |]; cbn [bind] in H; try discriminate.
  destruct (long_set_header _ _ _) as [aw1| |] eqn:E1; cbn [bind] in H; try discriminate. apply set_header_size in E1.
  destruct found as [[sl []]|].
  - inversion H; auto.
  - destruct (push_watch _ _ _ _); cbn [bind] in H; try discriminate.
    destruct (long_set_lits _ _ _) as [aw2| |] eqn:E2; cbn [bind] in H; try discriminate. apply set_lits_size in E2.
    inversion H; subst. cbn. congruence.
  - destruct (pa_is_false _ _) as [[]| |]; cbn [bind] in H; try discriminate; [inversion H; auto|].
    destruct (long_set_lits _ _ _) as [aw2| |] eqn:E2; cbn [bind] in H; try discriminate. apply set_lits_size in E2.
    destruct (assign_raw _ _ _ _) as [[v t]| |]; cbn [bind] in H; try discriminate. inversion H; subst. cbn. congruence.
Qed.
Lemma scan_inv {A S} (P : S -> Prop) (f : S -> A -> res (S * ms_action A)) :
  (forall s x s' act, f s x = Ret (s', act) -> P s -> P s') ->
  forall l s s' l', scan_list f l s = Ret (s', l') -> P s -> P s'.
Proof.
  intros Hf. induction l as [|x r IH]; intros s s' l' H HP; cbn [scan_list] in H; [inversion H; subst; auto|].
  destruct (f s x) as [[s1 act]| |] eqn:E; cbn [bind] in H; try discriminate. pose proof (Hf _ _ _ _ E HP) as H1.
  destruct act; [destruct (scan_list f r s1) as [[s2 l2]| |] eqn:E2; cbn [bind] in H; try discriminate; inversion H; subst; eauto|eauto|inversion H; subst; auto].
Qed.
Lemma literal_size dbg p l p' r : propagate_literal dbg p l = Ret (p', r) -> awords (p_long p') = awords (p_long p).
Proof.
  unfold propagate_literal, propagate_binary_clauses, propagate_long_clauses. intro H.
  destruct (bin_containing _ _); cbn [bind] in H; try discriminate.
  destruct (binary_loop _ _ _ _) as [[p1 r1]| |] eqn:E; cbn [bind] in H; try discriminate. apply binary_size in E.
  destruct r1; [inversion H; subst; congruence|].
  destruct (watches_take _ _ _) as [[wl ws]| |]; cbn [bind] in H; try discriminate.
  destruct (scan_list _ _ _) as [[[p2 r2] wl']| |] eqn:E2; cbn [bind] in H; try discriminate.
  destruct (watches_restore _ _ _ _); cbn [bind] in H; try discriminate. inversion H; subst. cbn.
  assert (G : awords (p_long (fst (p2, r))) = awords (p_long p)).
  { refine (scan_inv (fun st => awords (p_long (fst st)) = awords (p_long p)) _ _ _ _ _ _ E2 _).
    - intros s x s' act B HS. apply body_size in B. congruence.
    - cbn. congruence. }
  exact G.
Qed.
Lemma propagate_loop_size dbg fuel : forall p p' r, propagate_loop fuel dbg p = Ret (p', r) -> awords (p_long p') = awords (p_long p).
Proof.
  induction fuel as [|f IH]; intros p p' r H; cbn [propagate_loop] in H; [discriminate|].
  destruct (next_unpropagated_lit _); [|inversion H; auto].
  destruct (propagate_literal _ _ _) as [[p1 r1]| |] eqn:E; cbn [bind] in H; try discriminate. apply literal_size in E.
  destruct r1; [inversion H; subst; auto|]. destruct (advance_propagated _ _); cbn [bind] in H; try discriminate.
  apply IH in H. rewrite H. exact E.
Qed.
Lemma propagate_size dbg cx p cx' p' r : propagate dbg cx p = Ret (cx', p', r) -> awords (p_long p') = awords (p_long p).
Proof.
  unfold propagate. intro H. destruct (enable_watch_lists _ _ _) as [p0| |] eqn:E; cbn [bind] in H; try discriminate. apply enable_size in E.
  destruct (propagate_loop _ _ _) as [[p1 r1]| |] eqn:E1; cbn [bind] in H; try discriminate. apply propagate_loop_size in E1.
  destruct r1; inversion H; subst; congruence.
Qed.

(** ** Conflict analysis *)
Lemma bump_size t a c tmp a' tmp' : bump_long_clause t a c tmp = Ret (a', tmp') -> awords a' = awords a.
Proof.
  unfold bump_long_clause. intro H. destruct (long_lits _ _); cbn [bind] in H; try discriminate.
  destruct (long_header_of _ _); cbn [bind] in H; try discriminate. destruct (compute_glue _ _ _) as [[g tm]| |]; cbn [bind] in H; try discriminate.
  destruct (long_set_header _ _ _) as [aw1| |] eqn:E; cbn [bind] in H; try discriminate. apply set_header_size in E. inversion H; subst; auto.
Qed.
Lemma uip_size n : forall p an cb p' an' cb', uip_loop n p an cb = Ret (p', an', cb') -> awords (p_long p') = awords (p_long p).
Proof.
  induction n as [|i IH]; intros p an cb p' an' cb' H; cbn [uip_loop] in H; [inversion H; auto|].
  destruct (vget _ _) as [cur| |]; cbn [bind] in H; try discriminate. destruct (vset _ _ _); cbn [bind] in H; try discriminate.
  destruct cur; cbn [negb] in H; [|eauto]. destruct (vget _ _) as [s| |]; cbn [bind] in H; try discriminate.
  destruct (Nat.ltb _ _); [|discriminate]. destruct (Nat.eqb _ _).
  - destruct (foldM _ _ _); cbn [bind] in H; try discriminate. inversion H; auto.
  - destruct (match s_reason s with RLong c => _ | _ => _ end) as [[p1 an3]| |] eqn:E; cbn [bind] in H; try discriminate.
    assert (E1 : awords (p_long p1) = awords (p_long p)).
    { destruct (s_reason s); try (inversion E; subst; auto; fail).
      destruct (bump_long_clause _ _ _ _) as [[a' g']| |] eqn:B; cbn [bind] in E; try discriminate. apply bump_size in B. inversion E; subst; auto. }
    destruct (reason_lits _ _); cbn [bind] in H; try discriminate. destruct (foldM _ _ _) as [[an4 cb4]| |]; cbn [bind] in H; try discriminate.
    apply IH in H. congruence.
Qed.
Lemma derive_size an p c cb p' an' cb' : derive_1uip_clause an p c cb = Ret (p', an', cb') -> awords (p_long p') = awords (p_long p).
Proof.
  unfold derive_1uip_clause. intro H.
  destruct (match c with CLong c => _ | _ => _ end) as [[p1 an3]| |] eqn:E; cbn [bind] in H; try discriminate.
  assert (E1 : awords (p_long p1) = awords (p_long p)).
  { destruct c; try (inversion E; subst; auto; fail).
    destruct (bump_long_clause _ _ _ _) as [[a' g']| |] eqn:B; cbn [bind] in E; try discriminate. apply bump_size in B. inversion E; subst; auto. }
  destruct (conflict_lits _ _); cbn [bind] in H; try discriminate. destruct (foldM _ _ _) as [[an4 cb4]| |]; cbn [bind] in H; try discriminate.
  destruct (uip_loop _ _ _ _) as [[[p2 an5] cb5]| |] eqn:U; cbn [bind] in H; try discriminate. apply uip_size in U.
  destruct (Nat.eqb _ _); [|discriminate]. inversion H; subst; congruence.
Qed.

(** ** Restarts and reduction *)
Lemma restart_size dbg cx se cx' se' : restart dbg cx se = Ret (cx', se') -> p_long (se_prop se') = p_long (se_prop se).
Proof.
  unfold restart, backtrack_to_level. intro H. destruct (Nat.ltb 0 _); [|inversion H; auto].
  destruct (vget _ _); cbn [bind] in H; try discriminate. destruct (Nat.leb _ _); [|discriminate].
  destruct (foldM _ _ _) as [[[cb v] ti]| |]; cbn [bind] in H; try discriminate. inversion H; auto.
Qed.
Lemma foldM_inv {A S} (P : S -> Prop) (f : S -> A -> res S) : (forall s x s', f s x = Ret s' -> P s -> P s') ->
  forall l s s', foldM f l s = Ret s' -> P s -> P s'.
Proof.
  intros Hf. induction l as [|x r IH]; intros s s' H HP; cbn [foldM] in H; [inversion H; subst; auto|].
  destruct (f s x) eqn:E; cbn [bind] in H; try discriminate. eauto.
Qed.
Lemma protect_size b t a a' : protect_clauses b t a = Ret a' -> awords a' = awords a.
Proof.
  unfold protect_clauses. intro H. refine (foldM_inv (fun x => awords x = awords a) _ _ _ _ _ H eq_refl).
  intros s x s' E HS. unfold protect_step in E. destruct (s_reason x); try (inversion E; subst; auto; fail).
  destruct (long_header_of _ _); cbn [bind] in E; try discriminate. apply set_header_size in E. congruence.
Qed.
Lemma candidate_size a c a' o : candidate a c = Ret (a', o) -> awords a' = awords a.
Proof.
  unfold candidate. intro H. destruct (long_len _ _); cbn [bind] in H; try discriminate. destruct (long_header_of _ _) as [h| |]; cbn [bind] in H; try discriminate.
  destruct (lh_protected h); [inversion H; auto|]. destruct (negb _); [inversion H; auto|]. destruct (_ <=? _)%N; [inversion H; auto|].
  destruct (if (0 <? lh_used h)%N then _ else _) as [h' skip]. destruct (long_set_header _ _ _) as [aw1| |] eqn:E; cbn [bind] in H; try discriminate.
  apply set_header_size in E. destruct skip; inversion H; subst; auto.
Qed.
Lemma candidates_size fuel : forall a it cs a' cs', candidates_loop fuel a it cs = Ret (a', cs') -> awords a' = awords a.
Proof.
  induction fuel as [|f IH]; intros a it cs a' cs' H; cbn [candidates_loop] in H; [discriminate|].
  destruct (long_next _ _) as [[c|]| |]; cbn [bind] in H; try discriminate; [|inversion H; auto].
  destruct (candidate a c) as [[a1 o]| |] eqn:E; cbn [bind] in H; try discriminate. apply candidate_size in E. apply IH in H. congruence.
Qed.
Lemma reduce_size select cx se cx' se' : reduce select cx se = Ret (cx', se') -> awords (p_long (se_prop se')) = awords (p_long (se_prop se)).
Proof.
  unfold reduce. intro H. destruct (protect_clauses true _ _) as [a1| |] eqn:E1; cbn [bind] in H; try discriminate. apply protect_size in E1.
  destruct (candidates_loop _ _ _ _) as [[a2 cands]| |] eqn:E2; cbn [bind] in H; try discriminate. apply candidates_size in E2.
  destruct (match cands with [] => _ | _ :: _ => _ end) as [[cx2 a3]| |] eqn:E3; cbn [bind] in H; try discriminate.
  destruct (protect_clauses false _ _) as [a4| |] eqn:E4; cbn [bind] in H; try discriminate. apply protect_size in E4.
  inversion H; subst. cbn. rewrite E4, <- E1, <- E2. clear -E3. destruct cands as [|x r]; [inversion E3; auto|].
  destruct (select _ _) as [[lo m] hi]. change (awords (snd (cx', a3)) = awords a2).
  refine (foldM_inv (fun s => awords (snd s) = awords a2) _ _ _ _ _ E3 eq_refl).
  intros [cx0 a0] y [cx3 a5] E HS. unfold delete_candidate in E. destruct (Nat.ltb _ _); [|discriminate]. cbn [snd] in *.
  destruct (match cx_proof _ with Some _ => _ | None => _ end); cbn [bind] in E; try discriminate.
  destruct (long_delete _ _) as [a6| |] eqn:D; cbn [bind] in E; try discriminate. apply delete_size in D. inversion E; subst; congruence.
Qed.
