(** The sizes of the watch lists and of the lists of binary clauses. *)
From Coq Require Import NArith List Bool Arith Lia ZifyN ZifyNat ZifyBool.
From Verif Require Import Model_Base Model_Lit Model_PartialAssignment Model_Header Model_Arena Model_MutScan Model_Prop
  Model_Heap Model_Vsids Model_Analysis Model_Luby Model_Solver Spec Drivers_Arena Proof_Base Proof_PA Proof_Lit Proof_Arena Proof_ArenaHist
  Proof_Long Proof_Trail Proof_Backtrack Proof_Inv Proof_PropOps Proof_Propagate Proof_Gc Proof_Analysis Proof_Solver Proof_Search
  Drivers_Solver Drivers_Search Proof_Main Proof_Visited Proof_Size Proof_Garbage.
Import ListNotations.

Definition tot {A} (ls : list (list A)) : nat := length (concat ls).
Definition tw (w : watches) : nat := tot (ws_by_lit w).

Lemma tot_cons {A} (x : list A) ls : tot (x :: ls) = length x + tot ls.
Proof. unfold tot. cbn [concat]. apply app_length. Qed.
Lemma tot_app {A} (l1 l2 : list (list A)) : tot (l1 ++ l2) = tot l1 + tot l2.
Proof. unfold tot. rewrite concat_app. apply app_length. Qed.
Lemma tot_upd {A} (v : list (list A)) i x old : nth_error v i = Some old -> tot (upd v i x) + length old = tot v + length x.
Proof.
  revert i. induction v as [|y v IH]; intros [|i] E; try discriminate.
  - inversion E; subst. cbn [upd]. rewrite !tot_cons. lia.
  - cbn [upd]. rewrite !tot_cons. specialize (IH i E). lia.
Qed.
Lemma tot_resize {A} (v : list (list A)) n : tot (vresize v n []) <= tot v.
Proof.
  unfold vresize. rewrite tot_app. assert (R : forall k, tot (repeat (@nil A) k) = 0) by (induction k; auto). rewrite R.
  assert (Q : forall k (l : list (list A)), tot (firstn k l) <= tot l).
  { induction k as [|k IH]; intros [|x l]; cbn [firstn]; rewrite ?tot_cons; try (unfold tot; cbn; lia). specialize (IH l). lia. }
  specialize (Q n v). lia.
Qed.

Lemma get_set {A} (v : list (list A)) i x old v' : vget v i = Ret old -> vset v i x = Ret v' -> tot v' + length old = tot v + length x.
Proof. intros E1 E2. apply vget_ok in E1. apply vset_ok in E2 as [_ ->]. apply tot_upd; auto. Qed.

Lemma watch_push_tw w l x w' : watch_push w l x = Ret w' -> tw w' = S (tw w).
Proof.
  unfold watch_push. intro E. destruct (vget _ _) as [wl| |] eqn:E1; cbn [bind] in E; try discriminate.
  destruct (vset _ _ _) as [bl| |] eqn:E2; cbn [bind] in E; try discriminate. inversion E; subst. unfold tw. cbn [ws_by_lit].
  pose proof (get_set _ _ _ _ _ E1 E2) as Q. rewrite app_length in Q. cbn [length] in Q. lia.
Qed.
Lemma push_watch_tw dbg w l x w' : push_watch dbg w l x = Ret w' -> tw w' = S (tw w).
Proof. unfold push_watch, dassert. destruct (_ && _); [discriminate|]. apply watch_push_tw. Qed.
Lemma watch_clause_tw w c a b w' : watch_clause w c a b = Ret w' -> tw w' <= tw w + 2.
Proof.
  unfold watch_clause. intro E. destruct (ws_enabled w); [|inversion E; lia].
  destruct (watch_push w a _) as [w1| |] eqn:E1; cbn [bind] in E; try discriminate. apply watch_push_tw in E1. apply watch_push_tw in E. lia.
Qed.
Lemma take_tw dbg w l wl w' : watches_take dbg w l = Ret (wl, w') -> tw w' + length wl = tw w.
Proof.
  unfold watches_take, dassert. intro E. destruct (_ && _); [discriminate|]. destruct (vget _ _) as [ol| |] eqn:E1; cbn [bind] in E; try discriminate.
  destruct (vset _ _ _) as [bl| |] eqn:E2; cbn [bind] in E; try discriminate. inversion E; subst. unfold tw. cbn [ws_by_lit].
  pose proof (get_set _ _ _ _ _ E1 E2) as Q. cbn [length] in Q. lia.
Qed.
Lemma restore_tw dbg w l ws w' : watches_restore dbg w l ws = Ret w' -> tw w' <= tw w + length ws.
Proof.
  unfold watches_restore, dassert. intro E. destruct (_ && _); [discriminate|]. destruct (vget _ _) as [ol| |] eqn:E1; cbn [bind] in E; try discriminate.
  destruct (_ && _); [discriminate|].
  destruct (vset _ _ _) as [bl| |] eqn:E2; cbn [bind] in E; try discriminate. inversion E; subst. unfold tw. cbn [ws_by_lit].
  pose proof (get_set _ _ _ _ _ E1 E2) as Q. lia.
Qed.

Definition kept {A} (act : ms_action A) : nat := match act with MSRemove => 0 | _ => 1 end.
Lemma body_tw dbg wl st w st' act : watch_body dbg wl st w = Ret (st', act) ->
  tw (p_watches (fst st')) + kept act <= tw (p_watches (fst st)) + 1 /\ p_binary (fst st') = p_binary (fst st).
Proof.
  destruct st as [p r]. unfold watch_body, store_search_pos. intro H.
  destruct (pa_is_true _ _) as [[]| |]; cbn [bind] in H; try discriminate; [inversion H; auto|].
  destruct (long_lits _ _); cbn [bind] in H; try discriminate.
  destruct (Nat.ltb _ _); [inversion H; subst; cbn; split; auto; lia|].
  destruct (long_header_of _ _); cbn [bind] in H; try discriminate.
  destruct (vget _ 0); cbn [bind] in H; try discriminate. destruct (vget _ 1); cbn [bind] in H; try discriminate.
  destruct (select_other _ _ _ _); cbn [bind] in H; try discriminate.
  destruct (pa_is_true _ _) as [[]| |]; cbn [bind] in H; try discriminate; [inversion H; auto|].
  destruct (search_loop _ _ _ _ _) as [[sp found]| |]; cbn [bind] in H; try discriminate.
  destruct (long_set_header _ _ _) as [aw1| |] eqn:E1; cbn [bind] in H; try discriminate.
  destruct found as [[sl []]|].
  - inversion H; auto.
  - destruct (push_watch _ _ _ _) as [w2| |] eqn:E2; cbn [bind] in H; try discriminate. apply push_watch_tw in E2.
    destruct (long_set_lits _ _ _) as [aw2| |]; cbn [bind] in H; try discriminate.
    inversion H; subst. cbn. split; auto. lia.
  - destruct (pa_is_false _ _) as [[]| |]; cbn [bind] in H; try discriminate; [inversion H; auto|].
    destruct (long_set_lits _ _ _) as [aw2| |]; cbn [bind] in H; try discriminate.
    destruct (assign_raw _ _ _ _) as [[v t]| |]; cbn [bind] in H; try discriminate. inversion H; subst. cbn. auto.
Qed.
Lemma scan_tw dbg l wl : forall st st' wl', scan_list (watch_body dbg l) wl st = Ret (st', wl') ->
  tw (p_watches (fst st')) + length wl' <= tw (p_watches (fst st)) + length wl /\ p_binary (fst st') = p_binary (fst st).
Proof.
  induction wl as [|w wl IH]; intros st st' wl' E; cbn [scan_list] in E; [inversion E; auto|].
  destruct (watch_body dbg l st w) as [[st1 act]| |] eqn:E1; cbn [bind] in E; try discriminate. apply body_tw in E1 as [A B].
  destruct act as [y| |y]; cbn [kept] in A.
  - destruct (scan_list _ wl st1) as [[st2 wl2]| |] eqn:E2; cbn [bind] in E; try discriminate. apply IH in E2 as [C D]. inversion E; subst. cbn [length]. split; [lia|congruence].
  - apply IH in E as [C D]. cbn [length]. split; [lia|congruence].
  - inversion E; subst. cbn [length]. split; [lia|congruence].
Qed.
Lemma binary_tw dbg cl others : forall p p' r, binary_loop dbg p cl others = Ret (p', r) -> p_watches p' = p_watches p /\ p_binary p' = p_binary p.
Proof.
  induction others as [|o r IH]; intros p p' x H; cbn [binary_loop] in H; [inversion H; auto|].
  destruct (pa_is_true _ _) as [[]| |]; cbn [bind] in H; try discriminate; [eauto|].
  destruct (pa_is_false _ _) as [[]| |]; cbn [bind] in H; try discriminate; [inversion H; auto|].
  destruct (assign_raw _ _ _ _) as [[v t]| |]; cbn [bind] in H; try discriminate. apply IH in H. exact H.
Qed.
Lemma literal_tw dbg p l p' r : propagate_literal dbg p l = Ret (p', r) -> tw (p_watches p') <= tw (p_watches p) /\ p_binary p' = p_binary p.
Proof.
  unfold propagate_literal, propagate_binary_clauses, propagate_long_clauses. intro H.
  destruct (bin_containing _ _); cbn [bind] in H; try discriminate.
  destruct (binary_loop _ _ _ _) as [[p1 r1]| |] eqn:E; cbn [bind] in H; try discriminate. apply binary_tw in E as [A B].
  destruct r1; [inversion H; subst; rewrite A; auto|].
  destruct (watches_take _ _ _) as [[wl ws]| |] eqn:E1; cbn [bind] in H; try discriminate. apply take_tw in E1.
  destruct (scan_list _ _ _) as [[[p2 r2] wl']| |] eqn:E2; cbn [bind] in H; try discriminate. apply scan_tw in E2 as [C D].
  destruct (watches_restore _ _ _ _) eqn:E3; cbn [bind] in H; try discriminate. apply restore_tw in E3. inversion H; subst.
  cbn [fst p_watches p_binary p_set_watches] in *. rewrite A in *. split; [lia|congruence].
Qed.
Lemma propagate_loop_tw dbg fuel : forall p p' r, propagate_loop fuel dbg p = Ret (p', r) -> tw (p_watches p') <= tw (p_watches p) /\ p_binary p' = p_binary p.
Proof.
  induction fuel as [|f IH]; intros p p' r H; cbn [propagate_loop] in H; [discriminate|].
  destruct (next_unpropagated_lit _); [|inversion H; auto].
  destruct (propagate_literal _ _ _) as [[p1 r1]| |] eqn:E; cbn [bind] in H; try discriminate. apply literal_tw in E as [A B].
  destruct r1; [inversion H; subst; auto|]. destruct (advance_propagated _ _); cbn [bind] in H; try discriminate.
  apply IH in H as [C D]. cbn [p_set_trail p_watches p_binary] in *. split; [lia|congruence].
Qed.
Lemma propagate_tw dbg cx p cx' p' r : ws_enabled (p_watches p) = true -> propagate dbg cx p = Ret (cx', p', r) ->
  tw (p_watches p') <= tw (p_watches p) /\ p_binary p' = p_binary p /\ st_binary (cx_stats cx') = st_binary (cx_stats cx).
Proof.
  unfold propagate, enable_watch_lists. intros He H. rewrite He in H. cbn [Bool.eqb bind] in H.
  destruct (propagate_loop _ _ _) as [[p1 r1]| |] eqn:E1; cbn [bind] in H; try discriminate. apply propagate_loop_tw in E1 as [A B].
  destruct r1; inversion H; subst; auto.
Qed.

Lemma uip_tw n : forall p an cb p' an' cb', uip_loop n p an cb = Ret (p', an', cb') -> p_watches p' = p_watches p /\ p_binary p' = p_binary p.
Proof.
  induction n as [|i IH]; intros p an cb p' an' cb' H; cbn [uip_loop] in H; [inversion H; auto|].
  destruct (vget _ _) as [cur| |]; cbn [bind] in H; try discriminate. destruct (vset _ _ _); cbn [bind] in H; try discriminate.
  destruct cur; cbn [negb] in H; [|eauto]. destruct (vget _ _) as [s| |]; cbn [bind] in H; try discriminate.
  destruct (Nat.ltb _ _); [|discriminate]. destruct (Nat.eqb _ _).
  - destruct (foldM _ _ _); cbn [bind] in H; try discriminate. inversion H; auto.
  - destruct (match s_reason s with RLong c => _ | _ => _ end) as [[p1 an3]| |] eqn:E; cbn [bind] in H; try discriminate.
    assert (E1 : p_watches p1 = p_watches p /\ p_binary p1 = p_binary p).
    { destruct (s_reason s); try (inversion E; subst; auto; fail).
      destruct (bump_long_clause _ _ _ _) as [[a' g']| |]; cbn [bind] in E; try discriminate. inversion E; subst; auto. }
    destruct (reason_lits _ _); cbn [bind] in H; try discriminate. destruct (foldM _ _ _) as [[an4 cb4]| |]; cbn [bind] in H; try discriminate.
    apply IH in H. destruct E1, H. split; congruence.
Qed.
Lemma derive_tw an p c cb p' an' cb' : derive_1uip_clause an p c cb = Ret (p', an', cb') -> p_watches p' = p_watches p /\ p_binary p' = p_binary p.
Proof.
  unfold derive_1uip_clause. intro H.
  destruct (match c with CLong c => _ | _ => _ end) as [[p1 an3]| |] eqn:E; cbn [bind] in H; try discriminate.
  assert (E1 : p_watches p1 = p_watches p /\ p_binary p1 = p_binary p).
  { destruct c; try (inversion E; subst; auto; fail).
    destruct (bump_long_clause _ _ _ _) as [[a' g']| |]; cbn [bind] in E; try discriminate. inversion E; subst; auto. }
  destruct (conflict_lits _ _); cbn [bind] in H; try discriminate. destruct (foldM _ _ _) as [[an4 cb4]| |]; cbn [bind] in H; try discriminate.
  destruct (uip_loop _ _ _ _) as [[[p2 an5] cb5]| |] eqn:U; cbn [bind] in H; try discriminate. apply uip_tw in U.
  destruct (Nat.eqb _ _); [|discriminate]. inversion H; subst. destruct E1, U. split; congruence.
Qed.
Lemma back_tw dbg p k cb p' cb' : backtrack_to_level dbg p k cb = Ret (p', cb') -> p_watches p' = p_watches p /\ p_binary p' = p_binary p /\ p_long p' = p_long p.
Proof.
  unfold backtrack_to_level. intro H. destruct (Nat.ltb _ _); [|discriminate]. destruct (vget _ _); cbn [bind] in H; try discriminate.
  destruct (Nat.leb _ _); [|discriminate]. destruct (foldM _ _ _) as [[[c v] ti]| |]; cbn [bind] in H; try discriminate. inversion H; auto.
Qed.

(** The invariant: a third of the clause memory bounds the watch lists, the number
    of binary clauses bounds their lists. *)
Definition J (cx : ctx) (p : prop) : Prop :=
  3 * tw (p_watches p) <= awords (p_long p) /\ tot (p_binary p) <= 2 * st_binary (cx_stats cx).

Lemma bin_push_tot b x y b' : bin_push b x y = Ret b' -> tot b' = S (tot b).
Proof.
  unfold bin_push. intro E. destruct (vget _ _) as [wl| |] eqn:E1; cbn [bind] in E; try discriminate.
  pose proof (get_set _ _ _ _ _ E1 E) as Q. rewrite app_length in Q. cbn [length] in Q. lia.
Qed.
Lemma add_J dbg cx p h ls ad cx' p' : add_clause_verbatim dbg cx p h ls = Ret (ad, cx', p') -> J cx p -> J cx' p'.
Proof.
  unfold add_clause_verbatim. intros H [A B]. destruct ls as [|a [|b [|c r]]].
  - inversion H; subst; split; auto.
  - destruct (pa_is_false _ _) as [[]| |]; cbn [bind] in H; try discriminate; [inversion H; subst; split; auto|].
    unfold assign in H. destruct (assign_raw _ _ _ _) as [[v t]| |]; cbn [bind] in H; try discriminate. inversion H; subst; split; auto.
  - destruct (bin_add _ _ _) as [b'| |] eqn:E; cbn [bind] in H; try discriminate. inversion H; subst. split; auto.
    unfold bin_add in E. destruct (bin_push (p_binary p) a b) as [b1| |] eqn:E1; cbn [bind] in E; try discriminate.
    apply bin_push_tot in E1. apply bin_push_tot in E. cbn [p_set_binary p_binary cx_with cx_stats st_binary]. lia.
  - destruct (long_add_clause _ _ _) as [[[o|] a']| |] eqn:E; cbn [bind] in H; try discriminate.
    destruct (watch_clause _ _ _ _) as [w'| |] eqn:E1; cbn [bind] in H; try discriminate. apply watch_clause_tw in E1. inversion H; subst.
    split; [|cbn [p_set_watches p_set_long p_binary cx_with cx_stats]; destruct (lh_redundant h); cbn [st_binary]; auto].
    cbn [p_long p_watches p_set_watches p_set_long]. unfold long_add_clause, arena_add_clause in E. destruct (negb _); [|discriminate]. destruct (_ || _); inversion E; subst.
    unfold awords in *. cbn [a_buffer]. repeat (rewrite ?app_length, ?map_length; cbn [lh_words length app map]). lia.
Qed.
Lemma analyze_J dbg cx an p c cb cx' an' p' cb' : analyze_conflict dbg cx an p c cb = Ret (cx', an', p', cb') -> J cx p -> J cx' p'.
Proof.
  unfold analyze_conflict. intros H HJ. destruct (negb _); [|discriminate].
  destruct (derive_1uip_clause _ _ _ _) as [[[p1 an1] cb1]| |] eqn:E1; cbn [bind] in H; try discriminate.
  pose proof (derive_size _ _ _ _ _ _ _ E1) as S1. apply derive_tw in E1 as [A1 A2].
  destruct (minimize_derived_clause _ _) as [[lv an2]| |]; cbn [bind] in H; try discriminate.
  destruct (backtrack_to_level _ _ _ _) as [[p2 cb2]| |] eqn:E2; cbn [bind] in H; try discriminate. apply back_tw in E2 as (B1 & B2 & B3).
  destruct (learn_and_assign _ _ _ _) as [[[cx3 an3] p3]| |] eqn:E3; cbn [bind] in H; try discriminate. inversion H; subst.
  assert (HJ2 : J cx p2). { unfold J in *. rewrite B1, B2, B3, A1, A2, S1. exact HJ. }
  clear - E3 HJ2. unfold learn_and_assign in E3.
  destruct (if dbg then _ else _); cbn [bind] in E3; try discriminate. destruct (if Nat.ltb 2 _ then _ else _) as [[h an1]| |]; cbn [bind] in E3; try discriminate.
  destruct (add_clause_verbatim _ _ _ _ _) as [[[ad cx2] p1]| |] eqn:E; cbn [bind] in E3; try discriminate. apply add_J in E; [|exact HJ2].
  destruct (match ad with AEmpty => _ | _ => _ end); [|inversion E3; subst; auto]. destruct (vget _ _); cbn [bind] in E3; try discriminate.
  unfold assign in E3. destruct (assign_raw _ _ _ _) as [[v t]| |]; cbn [bind] in E3; try discriminate. inversion E3; subst. exact E.
Qed.

(** ** Garbage collection *)
(** A list whose members are among [R], each at most twice. *)
Lemma count_two (R l : list nat) : (forall c, In c l -> In c R) -> (forall c, count_occ Nat.eq_dec l c <= 2) -> length l <= 2 * length R.
Proof.
  revert l. induction R as [|r R IH]; intros l Hi Hc.
  - destruct l as [|x l]; [cbn; lia|]. destruct (Hi x (or_introl eq_refl)).
  - assert (Q : length l = count_occ Nat.eq_dec l r + length (remove Nat.eq_dec r l)).
    { clear. induction l as [|x l IH]; [reflexivity|]. cbn [count_occ remove length]. destruct (Nat.eq_dec x r), (Nat.eq_dec r x); try congruence; cbn [length]; lia. }
    specialize (IH (remove Nat.eq_dec r l)). specialize (Hc r) as Hr. cbn [length]. assert (length (remove Nat.eq_dec r l) <= 2 * length R); [|lia].
    apply IH.
    + intros c Hin. apply in_remove in Hin as [H1 H2]. destruct (Hi c H1); [congruence|auto].
    + intro c. specialize (Hc c). destruct (Nat.eq_dec c r) as [->|Ne].
      * replace (count_occ _ _ _) with 0; [lia|]. symmetry. apply count_occ_not_In. apply remove_In.
      * assert (E : count_occ Nat.eq_dec (remove Nat.eq_dec r l) c = count_occ Nat.eq_dec l c); [|lia].
        clear - Ne. induction l as [|x l IH]; [reflexivity|]. cbn [remove]. destruct (Nat.eq_dec r x).
        -- subst. rewrite IH. cbn [count_occ]. destruct (Nat.eq_dec x c); [congruence|reflexivity].
        -- cbn [count_occ]. rewrite IH. reflexivity.
Qed.
Lemma count_concat c (bl : list (list watch)) : forall a b k, (forall i, i < length bl -> wcnt c (nth i bl []) <= one (k + i =? a) + one (k + i =? b)) ->
  count_occ Nat.eq_dec (map w_clause (concat bl)) c <= one (k <=? a) + one (k <=? b).
Proof.
  induction bl as [|x bl IH]; intros a b k H; cbn [concat map count_occ]; [lia|].
  rewrite map_app, count_occ_app. specialize (IH a b (S k)).
  assert (Q : count_occ Nat.eq_dec (map w_clause (concat bl)) c <= one (S k <=? a) + one (S k <=? b)).
  { apply IH. intros i Hi. specialize (H (S i)). cbn [nth length] in H. replace (S k + i) with (k + S i) by lia. apply H. lia. }
  specialize (H 0 ltac:(cbn; lia)). cbn [nth] in H. unfold wcnt in H. rewrite Nat.add_0_r in H.
  unfold one in *. destruct (Nat.eqb_spec k a), (Nat.eqb_spec k b), (Nat.leb_spec k a), (Nat.leb_spec k b), (Nat.leb_spec (S k) a), (Nat.leb_spec (S k) b); lia.
Qed.
(** If there are no deleted clauses, every clause has two watches. *)
Lemma all_live_tw n es p : PI n es p -> (forall c h l, In (c, h, l) es -> l <> []) -> a_garbage (p_long p) = 0 ->
  3 * tw (p_watches p) <= awords (p_long p).
Proof.
  intros HP Hl Hg. pose proof (pi_lr _ _ _ _ HP) as HL. pose proof (pi_wf _ _ _ _ HP) as W.
  set (bl := ws_by_lit (p_watches p)) in *. pose proof (pi_wl _ _ _ _ HP) as Hw. fold bl in Hw.
  assert (Hidx : forall i, i < 2 * n -> vidx (N.of_nat i) < n /\ nth i bl [] = wfun bl (N.of_nat i)).
  { intros i Hi. unfold wfun, cidx. rewrite Nat2N.id. split; auto. apply cidx_lt. unfold cidx. rewrite Nat2N.id. auto. }
  assert (Href : forall w, In w (concat bl) -> exists h l, In (w_clause w, h, l) es).
  { intros w Hi. apply in_concat in Hi as (wl & H1 & H2). apply (In_nth _ _ []) in H1 as (i & Hi & <-). rewrite Hw in Hi. destruct (Hidx i Hi) as [V E]. rewrite E in H2.
    destruct (wf_ref _ _ _ W _ _ V H2) as (_ & h & l & A & _). eauto. }
  assert (T : tw (p_watches p) <= 2 * length es).
  { unfold tw, tot. fold bl. rewrite <- (map_length w_clause), <- (map_length le_ref es). apply count_two.
    - intros c Hc. apply in_map_iff in Hc as (w & <- & Hi). destruct (Href w Hi) as (h & l & A). apply in_map_iff. exists (w_clause w, h, l). auto.
    - intro c. destruct (in_dec Nat.eq_dec c (map w_clause (concat bl))) as [Hc|Hc].
      + apply in_map_iff in Hc as (w & <- & Hi). destruct (Href w Hi) as (h & l & A).
        pose proof (Hl _ _ _ A) as Ne. destruct (pi_ll _ _ _ _ HP _ _ _ A Ne) as (L3 & _ & _). destruct l as [|a [|b r]]; [congruence|cbn in L3; lia|].
        pose proof (count_concat (w_clause w) bl (N.to_nat a) (N.to_nat b) 0) as Q.
        assert (count_occ Nat.eq_dec (map w_clause (concat bl)) (w_clause w) <= one (0 <=? N.to_nat a) + one (0 <=? N.to_nat b)); [|unfold one in *; cbn in *; lia].
        apply Q. intros i Hi2. rewrite Hw in Hi2. destruct (Hidx i Hi2) as [V E]. rewrite E, (wf_cnt _ _ _ W _ _ _ _ _ A _ V).
        unfold one. cbn [Nat.add]. destruct (N.eqb_spec (N.of_nat i) a), (N.eqb_spec (N.of_nat i) b), (Nat.eqb_spec i (N.to_nat a)), (Nat.eqb_spec i (N.to_nat b)); lia.
      + apply count_occ_not_In with (eq_dec := Nat.eq_dec) in Hc. lia. }
  pose proof (AR_used 2 _ _ HL) as U. unfold utilization in U. rewrite Hg in U. cbn [Nat.leb] in U. injection U as U. rewrite Nat.sub_0_r in U.
  assert (B : 6 * length es <= used_words 2 (map le_words es)).
  { assert (G : forall e, In e es -> e_live (le_words e) = true /\ 3 <= length (e_lits (le_words e))).
    { intros [[c h] l] Hi. pose proof (Hl _ _ _ Hi) as Ne. destruct (pi_ll _ _ _ _ HP _ _ _ Hi Ne) as (L3 & _ & _). split; [|exact L3]. destruct l; [congruence|reflexivity]. }
    clear - G. unfold used_words, list_sum. induction es as [|e es IH]; [cbn; lia|]. destruct (G e (or_introl eq_refl)) as [G1 G2]. cbn [map filter]. rewrite G1. cbn [map fold_right length].
    specialize (IH (fun x Hx => G x (or_intror Hx))). lia. }
  unfold awords. lia.
Qed.
Lemma collect_J dbg cx n es p p' : PI n es p -> prop_collect_garbage dbg p = Ret p' -> J cx p -> J cx p' /\ ws_enabled (p_watches p') = true.
Proof.
  intros HP E [HJ1 HJ2]. unfold prop_collect_garbage in E. destruct (should_collect_garbage _); [|inversion E; subst; split; [split; auto|apply HP]].
  destruct (collect_ok n es dbg p HP) as [[E1 _]|(gaps & a' & es' & w' & E1 & HP' & G)]; [congruence|].
  assert (Hg : a_garbage a' = 0).
  { unfold collect_garbage_now in E1. destruct (_ <=? _)%N; [|discriminate]. destruct (long_collect _) as [[a g]| |] eqn:Ec; cbn [bind] in E1; try discriminate.
    destruct (trail_update_refs _ _); cbn [bind] in E1; try discriminate. destruct (watches_update_refs _ _ _); cbn [bind] in E1; try discriminate.
    unfold long_collect, collect_garbage in Ec. destruct (next_clause _ _ _); cbn [bind] in Ec; try discriminate.
    destruct (gc_loop _ _ _ _ _ _ _) as [[[[ag w2] x2] g2]| |]; cbn [bind] in Ec; try discriminate. inversion Ec; subst. inversion E1; subst. reflexivity. }
  rewrite E in E1. inversion E1; subst p'. split; [|apply (pi_en _ _ _ _ HP')]. split; [|exact HJ2].
  eapply all_live_tw; [exact HP'| |exact Hg]. intros c h l Hi. destruct (GCE_in_rev _ _ _ _ _ _ G Hi) as (c0 & _ & _ & Ne). exact Ne.
Qed.

(** ** Reachable states *)
Lemma step_J select dbg F cx se r cx' se' : anysel select -> visited select dbg F cx se ->
  search_step dbg cx se = Ret (r, cx', se') -> J cx (se_prop se) -> J cx' (se_prop se').
Proof.
  intros Hs HV E HJ. destruct (visited_SI _ _ _ _ _ Hs HV) as (K & L & st & es & _ & HI).
  unfold search_step in E. destruct (p_unsat (se_prop se)); [inversion E; subst; exact HJ|].
  destruct (prop_collect_garbage dbg (se_prop se)) as [p0| |] eqn:E0; try discriminate. cbn [bind] in E.
  destruct (collect_J dbg cx _ _ _ _ (s_pi _ _ _ _ _ _ _ _ HI) E0 HJ) as [HJ0 He].
  destruct (propagate dbg cx p0) as [[[cx1 p1] r1]| |] eqn:E1; try discriminate. cbn [bind] in E.
  assert (HJ1 : J cx1 p1).
  { destruct (propagate_tw _ _ _ _ _ _ He E1) as (A & B & C). apply propagate_size in E1. destruct HJ0. unfold J. rewrite B, C, E1. split; [lia|auto]. }
  destruct r1 as [c|].
  - destruct (Nat.eqb _ _); [inversion E; subst; exact HJ1|].
    destruct (analyze_conflict _ _ _ _ _ _) as [[[[cx3 an] p2] cb]| |] eqn:E2; try discriminate. cbn [bind] in E. inversion E; subst. cbn [se_prop].
    eapply analyze_J; [exact E2|]. exact HJ1.
  - destruct (pop_decision_var _ _) as [[ov vs]| |] eqn:E2; try discriminate. cbn [bind] in E. destruct ov as [v|]; [|inversion E; subst; exact HJ1].
    destruct (decide_phase _ _) as [l| |] eqn:E3; try discriminate. cbn [bind] in E. unfold assign_decision, assign in E.
    destruct (assign_raw _ _ _ _) as [[vv t]| |]; cbn [bind] in E; try discriminate. inversion E; subst. exact HJ1.
Qed.
Lemma restart_J dbg cx se cx' se' : restart dbg cx se = Ret (cx', se') -> J cx (se_prop se) -> J cx' (se_prop se').
Proof.
  unfold restart. intros E HJ. destruct (Nat.ltb 0 _); [|inversion E; subst; exact HJ].
  destruct (backtrack_to_level _ _ _ _) as [[p cb]| |] eqn:E1; cbn [bind] in E; try discriminate. apply back_tw in E1 as (A & B & C). inversion E; subst.
  unfold J in *. cbn [se_prop]. rewrite A, B, C. exact HJ.
Qed.
Lemma reduce_J select cx se cx' se' : reduce select cx se = Ret (cx', se') -> J cx (se_prop se) -> J cx' (se_prop se').
Proof.
  intros E [H1 H2]. pose proof (reduce_size _ _ _ _ _ E) as Hsz. unfold J. rewrite Hsz. unfold reduce in E.
  destruct (protect_clauses true _ _) as [a1| |]; cbn [bind] in E; try discriminate.
  destruct (candidates_loop _ _ _ _) as [[a2 cands]| |]; cbn [bind] in E; try discriminate.
  destruct (match cands with [] => _ | _ :: _ => _ end) as [[cx2 a3]| |] eqn:E3; cbn [bind] in E; try discriminate.
  destruct (protect_clauses false _ _) as [a4| |]; cbn [bind] in E; try discriminate.
  inversion E; subst. cbn [se_prop p_set_long p_watches p_binary]. split; auto.
  assert (Q : st_binary (cx_stats cx') = st_binary (cx_stats cx)); [|lia]. destruct cands as [|x r]; [inversion E3; auto|].
  destruct (select _ _) as [[lo m] hi]. change (st_binary (cx_stats (fst (cx', a3))) = st_binary (cx_stats cx)).
  refine (foldM_inv (fun s => st_binary (cx_stats (fst s)) = st_binary (cx_stats cx)) _ _ _ _ _ E3 eq_refl).
  intros [cx0 a0] y [cx3 a5] Ed HS. unfold delete_candidate in Ed. cbn [fst] in *. destruct (Nat.ltb _ _); [|discriminate].
  destruct (match cx_proof _ with Some _ => _ | None => _ end) as [cx4| |] eqn:E4; cbn [bind] in Ed; try discriminate.
  destruct (long_delete _ _); cbn [bind] in Ed; try discriminate. inversion Ed; subst.
  destruct (cx_proof _); [|inversion E4; exact HS]. destruct (long_lits _ _); cbn [bind] in E4; try discriminate. inversion E4; subst.
  unfold cx_log, cx_with; cbn [cx_stats cx_proof]. destruct (cx_proof cx0); exact HS.
Qed.
Lemma solver_add_J dbg s c s' : solver_add_clause dbg s c = Ret s' ->
  J (so_ctx s) (se_prop (sta_search (so_state s))) -> J (so_ctx s') (se_prop (sta_search (so_state s'))).
Proof.
  unfold solver_add_clause, search_resize. intros E HJ. destruct (st_vars _ <? _).
  - destruct (vsids_resize _ _); cbn [bind] in E; try discriminate. destruct (add_clause_verbatim _ _ _ _ _) as [[[ad cx2] p1]| |] eqn:E1; cbn [bind] in E; try discriminate.
    inversion E; subst. apply add_J in E1; [exact E1|]. cbn [se_prop]. destruct HJ as [A B]. split.
    + cbn [prop_resize p_watches p_long]. unfold tw, watches_resize in *. cbn [ws_by_lit]. pose proof (tot_resize (ws_by_lit (p_watches (se_prop (sta_search (so_state s))))) (clause_var_count c * 2)). lia.
    + cbn [prop_resize p_binary cx_set_vars cx_with cx_stats st_binary]. unfold bin_resize. pose proof (tot_resize (p_binary (se_prop (sta_search (so_state s)))) (clause_var_count c * 2)). lia.
  - cbn [bind] in E. destruct (add_clause_verbatim _ _ _ _ _) as [[[ad cx2] p1]| |] eqn:E1; cbn [bind] in E; try discriminate.
    inversion E; subst. apply add_J in E1; auto.
Qed.
Lemma reach_J select dbg F s : anysel select -> reach select dbg F s -> J (so_ctx s) (se_prop (sta_search (so_state s))).
Proof.
  intros Hs H. induction H as [F s H|F s r cx st H IH E|F s H IH|F s c s' H IH Hc Hw E]; auto.
  - induction H as [|F s c s' HB IH Hc E|F s HB IH|F s HB IH]; auto; [split; cbn; lia|]. eapply solver_add_J; eauto.
  - cbn [so_state so_ctx]. pose proof (vis_solver _ _ _ _ H) as HV. unfold schedule_search_step in E. destruct (should_restart _ _) as [dr sc1].
    destruct (if dr then _ else _) as [[cx1 se1]| |] eqn:E1; cbn [bind] in E; try discriminate.
    assert (Q1 : visited select dbg F cx1 se1 /\ J cx1 (se_prop se1)).
    { destruct dr; [|inversion E1; subst; auto]. split; [eapply vis_restart; eauto|eapply restart_J; eauto]. }
    destruct (should_reduce cx1 sc1) as [dd sc2]. destruct (if dd then _ else _) as [[cx2 se2]| |] eqn:E2; cbn [bind] in E; try discriminate.
    assert (Q2 : visited select dbg F cx2 se2 /\ J cx2 (se_prop se2)).
    { destruct dd; [|inversion E2; subst; auto]. destruct (reduce select cx1 se1) as [[cx4 se4]| |] eqn:E4; cbn [bind] in E2; try discriminate.
      destruct (report _ _); cbn [bind] in E2; try discriminate. inversion E2; subst. split; [eapply vis_reduce; [apply Q1|eauto]|eapply reduce_J; [eauto|apply Q1]]. }
    destruct (search_step dbg cx2 se2) as [[[r3 cx3] se3]| |] eqn:E3; cbn [bind] in E; try discriminate. inversion E; subst. cbn [sta_search].
    eapply step_J; [exact Hs|apply Q2|exact E3|apply Q2].
  - eapply solver_add_J; eauto.
Qed.
