(** The work of unit propagation in a whole run: the potential of Proof_Work.v does
    not grow except at conflicts, restarts and added clauses. *)
From Coq Require Import NArith List Bool Arith Lia Permutation ZifyN ZifyNat ZifyBool.
From Verif Require Import Model_Base Model_Lit Model_PartialAssignment Model_Header Model_Arena Model_MutScan Model_Prop
  Model_Heap Model_Vsids Model_Analysis Model_Luby Model_Solver Model_Cost Model_Work Model_RunWork Spec Drivers_Arena Proof_Base Proof_PA Proof_Lit Proof_Arena Proof_ArenaHist
  Proof_Long Proof_Trail Proof_PropOps Proof_Backtrack Proof_Inv Proof_Propagate Proof_Gc Proof_Glue Proof_Analysis Proof_Learn Proof_DB Proof_Reduce Proof_Solver Proof_Search Proof_Solve Proof_Add
  Drivers_Solver Drivers_Search Proof_Main Proof_Visited Proof_Cost Proof_Work Proof_Garbage Proof_Tables Prop_Prop Prop_Analysis Prop_Work.
Import ListNotations.

(** ** The counter changes no result *)
Lemma er_step_n dbg cx se : erase (search_step_n dbg cx se) = search_step dbg cx se.
Proof.
  unfold search_step_n, search_step. destruct (p_unsat _); [reflexivity|]. apply er_bind; [apply er_units|]. intro p0.
  apply er_bind; [apply er_propagate|]. intros [[cx1 p1] r]. apply er_units.
Qed.
Lemma er_schedule_n select dbg cx st : erase (schedule_search_step_n select dbg cx st) = schedule_search_step select dbg cx st.
Proof.
  unfold schedule_search_step_n, schedule_search_step. destruct (should_restart _ _) as [dr sc1]. apply er_bind; [apply er_units|]. intros [cx1 se1].
  destruct (should_reduce _ _) as [dd sc2]. apply er_bind; [apply er_units|]. intros [cx2 se2]. apply er_bind; [apply er_step_n|]. intros [[r cx3] se3]. reflexivity.
Qed.

(** ** Clause lists of the same arena *)
Lemma live_refs_unique a : forall k es1 es2 p1 d1 p2 d2 iter, length es1 + length es2 <= k ->
  LR a (p1 ++ d1 ++ es1) -> LR a (p2 ++ d2 ++ es2) -> at_iter p1 iter -> at_iter p2 iter ->
  (forall e, In e d1 -> le_live e = false) -> (forall e, In e d2 -> le_live e = false) ->
  map le_ref (filter le_live es1) = map le_ref (filter le_live es2).
Proof.
  induction k as [|k IH]; intros es1 es2 p1 d1 p2 d2 iter Hk H1 H2 I1 I2 D1 D2.
  - destruct es1, es2; cbn in Hk; try lia. reflexivity.
  - pose proof (next_at _ _ _ _ H1 I1) as N1. pose proof (next_at _ _ _ _ H2 I2) as N2. rewrite first_live_dead in N1, N2 by auto.
    assert (Q : first_live_l es1 = first_live_l es2) by congruence. clear N1 N2.
    assert (S1 : forall e r, es1 = e :: r -> le_live e = false -> map le_ref (filter le_live es1) = map le_ref (filter le_live es2)).
    { intros e r -> Hd. cbn [filter]. rewrite Hd. apply (IH r es2 p1 (d1 ++ [e]) p2 d2 iter); auto; [cbn in Hk; lia|rewrite <- app_assoc; exact H1|].
      intros x Hx. apply in_app_or in Hx as [Hx|[<-|[]]]; auto. }
    assert (S2 : forall e r, es2 = e :: r -> le_live e = false -> map le_ref (filter le_live es1) = map le_ref (filter le_live es2)).
    { intros e r -> Hd. cbn [filter]. rewrite Hd. apply (IH es1 r p1 d1 p2 (d2 ++ [e]) iter); auto; [cbn in Hk; lia|rewrite <- app_assoc; exact H2|].
      intros x Hx. apply in_app_or in Hx as [Hx|[<-|[]]]; auto. }
    destruct es1 as [|e1 r1].
    + destruct es2 as [|e2 r2]; [reflexivity|]. destruct (le_live e2) eqn:L2; [|eapply S2; eauto]. cbn [first_live_l] in Q. rewrite L2 in Q. discriminate.
    + destruct (le_live e1) eqn:L1; [|eapply S1; eauto]. destruct es2 as [|e2 r2]; [cbn [first_live_l] in Q; rewrite L1 in Q; discriminate|].
      destruct (le_live e2) eqn:L2; [|eapply S2; eauto]. cbn [first_live_l] in Q. rewrite L1, L2 in Q. inversion Q as [Q1]. cbn [filter]. rewrite L1, L2. cbn [map]. f_equal; [exact Q1|].
      apply (IH r1 r2 (p1 ++ d1 ++ [e1]) [] (p2 ++ d2 ++ [e2]) [] (Some (le_ref e1))).
      * cbn in Hk. lia.
      * rewrite <- !app_assoc. exact H1.
      * rewrite <- !app_assoc. exact H2.
      * exists (p1 ++ d1), e1. rewrite app_assoc. auto.
      * exists (p2 ++ d2), e2. rewrite app_assoc, Q1. auto.
      * intros x [].
      * intros x [].
Qed.
Lemma cpot_dead p es e : LR (p_long p) es -> In e es -> le_live e = false -> cpot p (le_ref e) = 0.
Proof.
  destruct e as [[c h] l]. intros H Hi Hd. change (le_ref (c, h, l)) with c. rewrite (cpot_in _ _ _ _ _ H Hi). destruct l; [reflexivity|discriminate].
Qed.
Lemma epot_live p es : LR (p_long p) es -> epot p (map le_ref es) = list_sum (map (cpot p) (map le_ref (filter le_live es))).
Proof.
  intro H. unfold epot. assert (G : forall l, (forall e, In e l -> In e es) -> list_sum (map (cpot p) (map le_ref l)) = list_sum (map (cpot p) (map le_ref (filter le_live l)))); [|apply G; auto].
  induction l as [|e l IH]; intro Hs; [reflexivity|]. cbn [map filter]. specialize (IH (fun x Hx => Hs x (or_intror Hx))). change (list_sum (cpot p (le_ref e) :: map (cpot p) (map le_ref l))) with (cpot p (le_ref e) + list_sum (map (cpot p) (map le_ref l))).
  destruct (le_live e) eqn:L; [cbn [map]; rewrite IH; reflexivity|]. rewrite (cpot_dead _ _ _ H (Hs _ (or_introl eq_refl)) L), IH. reflexivity.
Qed.
Lemma phi_unique n p es1 es2 : LR (p_long p) es1 -> LR (p_long p) es2 -> phi n (map le_ref es1) p = phi n (map le_ref es2) p.
Proof.
  intros H1 H2. unfold phi. rewrite (epot_live _ _ H1), (epot_live _ _ H2).
  rewrite (live_refs_unique (p_long p) (length es1 + length es2) es1 es2 [] [] [] [] None); auto; try reflexivity; intros e [].
Qed.

(** ** Garbage collection and reduction *)
Lemma clp_pos F h h' l : lh_search_pos h' = lh_search_pos h -> clp F h' l = clp F h l.
Proof. intro E. destruct l as [|a [|b r]]; cbn [clp]; rewrite ?E; reflexivity. Qed.
Lemma epot_gc p p' gaps es es' : LR (p_long p) es -> LR (p_long p') es' -> GCE gaps es es' ->
  slits (t_steps (p_trail p')) = slits (t_steps (p_trail p)) -> epot p' (map le_ref es') = epot p (map le_ref es).
Proof.
  intros H H' G Es. rewrite (epot_live _ _ H). unfold epot, GCE in *.
  assert (Q : forall l l', Forall2 (fun e e' => gc_update gaps (le_ref e) = Ret (Some (le_ref e')) /\ le_hdr e' = le_hdr e /\ le_lits e' = le_lits e) l l' ->
    (forall e, In e l -> In e es) -> (forall e, In e l' -> In e es') -> list_sum (map (cpot p') (map le_ref l')) = list_sum (map (cpot p) (map le_ref l))).
  { induction 1 as [|e e' l l' (_ & A & B) FF IH]; intros S1 S2; [reflexivity|]. cbn [map]. change (cpot p' (le_ref e') + list_sum (map (cpot p') (map le_ref l')) = cpot p (le_ref e) + list_sum (map (cpot p) (map le_ref l))).
    rewrite IH by (intros; auto; solve [apply S1; right; auto|apply S2; right; auto]). f_equal.
    pose proof (S1 e (or_introl eq_refl)) as I1. pose proof (S2 e' (or_introl eq_refl)) as I2.
    destruct e as [[c h] x], e' as [[c' h'] x']. cbn in A, B. subst h' x'. unfold le_ref; cbn [fst]. rewrite (cpot_in _ _ _ _ _ H I1), (cpot_in _ _ _ _ _ H' I2), Es. reflexivity. }
  apply Q; auto. intros e Hi. apply filter_In in Hi. tauto.
Qed.
Lemma scan_le g (wl : list watch) : forall u u' wl', scan_list (fun (u : unit) x =>
            let* c := gc_update g (w_clause x) in
            match c with
            | Some c => Ret (u, MSKeep (mkWatch c (w_blocking x)))
            | None => Ret (u, MSRemove)
            end) wl u = Ret (u', wl') -> length wl' <= length wl.
Proof.
  induction wl as [|x wl IH]; intros u u' wl' E; cbn [scan_list] in E; [inversion E; auto|].
  destruct (gc_update g (w_clause x)) as [[c|]| |]; cbn [bind] in E; try discriminate.
  - destruct (scan_list _ wl u) as [[u1 r]| |] eqn:Er; cbn [bind] in E; try discriminate. inversion E; subst. apply IH in Er. cbn [length]. lia.
  - apply IH in E. cbn [length]. lia.
Qed.
Lemma update_le dbg w g w' : watches_update_refs dbg w g = Ret w' -> Forall2 (fun l l' => length l' <= length l) (ws_by_lit w) (ws_by_lit w').
Proof.
  unfold watches_update_refs, dassert. destruct (dbg && negb (ws_enabled w)); [discriminate|]. intro E.
  destruct (mapM _ (ws_by_lit w)) as [bl| |] eqn:Em; cbn [bind] in E; try discriminate. inversion E; subst. cbn [ws_by_lit]. clear E. revert bl Em.
  induction (ws_by_lit w) as [|x l IH]; intros bl Em; cbn [mapM] in Em; [inversion Em; constructor|].
  destruct (scan_list _ x tt) as [[u wl]| |] eqn:Es; cbn [bind] in Em; try discriminate.
  destruct (mapM _ l) as [r| |] eqn:Er; cbn [bind] in Em; try discriminate. inversion Em; subst. constructor; [eapply scan_le; eauto|]. apply IH. reflexivity.
Qed.
Lemma forall2_tot (l l' : list (list watch)) : Forall2 (fun x x' => length x' <= length x) l l' -> tot l' <= tot l.
Proof. induction 1; [auto|]. rewrite !tot_cons. lia. Qed.
Lemma forall2_nth (l l' : list (list watch)) : Forall2 (fun x x' => length x' <= length x) l l' -> forall i, length (nth i l' []) <= length (nth i l []).
Proof. induction 1 as [|x x' l l' H F IH]; intros [|i]; cbn [nth]; auto. Qed.

Definition wpot (p : prop) : nat := 2 * tw (p_watches p) + tot (p_binary p).
Definition lits_of (es : list lent) : nat := list_sum (map (fun e => length (le_lits e)) es).

Lemma gc_phi dbg n es p p' es' : PI n es p -> prop_collect_garbage dbg p = Ret p' -> PI n es' p' ->
  phi n (map le_ref es') p' <= phi n (map le_ref es) p /\ wpot p' <= wpot p /\
  slits (t_steps (p_trail p')) = slits (t_steps (p_trail p)) /\ t_propagated (p_trail p') = t_propagated (p_trail p).
Proof.
  intros H E H'. unfold prop_collect_garbage in E. destruct (should_collect_garbage _).
  2:{ inversion E; subst. split; [|auto]. rewrite (phi_unique n p' es' es) by (apply H || apply H'). auto. }
  destruct (collect_ok n es dbg p H) as [[E1 _]|(gaps & a' & es1 & w' & E1 & H1 & G)]; [congruence|].
  rewrite E in E1. inversion E1; subst p'. clear E1. set (q := mkProp _ _ _ _ _ _) in *.
  assert (W : Forall2 (fun l l' => length l' <= length l) (ws_by_lit (p_watches p)) (ws_by_lit w')).
  { unfold collect_garbage_now in E. destruct (_ <=? _)%N; [|discriminate]. destruct (long_collect _) as [[al gg]| |]; cbn [bind] in E; try discriminate.
    destruct (trail_update_refs _ _) as [t'| |]; cbn [bind] in E; try discriminate. destruct (watches_update_refs _ _ _) as [w2| |] eqn:Ew; cbn [bind] in E; try discriminate.
    apply (f_equal (fun r => match r with Ret x => p_watches x | _ => w' end)) in E. cbn in E. subst w2. eapply update_le; eauto. }
  assert (Es : slits (t_steps (p_trail q)) = slits (t_steps (p_trail p))) by (cbn [q p_trail gc_trail t_steps]; rewrite Proof_Gc.gc_slits; reflexivity).
  split; [|split; [|split; [exact Es|reflexivity]]].
  - rewrite (phi_unique n q es' es1) by (apply H1 || apply H'). unfold phi. rewrite (epot_gc p q gaps es es1 (pi_lr _ _ _ _ H) (pi_lr _ _ _ _ H1) G Es).
    assert (HU : forall x, unproc q x = unproc p x).
    { intro x. unfold unproc. cbn [q p_trail gc_trail t_propagated t_steps]. rewrite <- !firstn_map, Proof_Gc.gc_slits. reflexivity. }
    assert (Ha : apot n q <= apot n p).
    { unfold apot. apply sum_le. intros x _. rewrite HU. destruct (unproc p x); [|lia]. cbn [q p_watches]. unfold wfun. apply forall2_nth; auto. }
    assert (Hb : bpot n q = bpot n p) by (unfold bpot; f_equal; apply map_ext; intro x; rewrite HU; reflexivity). lia.
  - unfold wpot, tw. cbn [q p_watches p_binary]. pose proof (forall2_tot _ _ W). lia.
Qed.

Lemma reduce_phi n F es p cx cx' es' a' D lls : PI n es p -> reduced n F es p cx cx' es' a' D lls ->
  phi n (map le_ref es') (p_set_long p a') <= phi n (map le_ref es) p.
Proof.
  intros H R. pose proof (rd_rel _ _ _ _ _ _ _ _ _ _ R) as HR. pose proof (rd_pi _ _ _ _ _ _ _ _ _ _ R) as H'. set (q := p_set_long p a') in *.
  assert (Er : map le_ref es' = map le_ref es) by (clear -HR; induction HR as [|x y l l' (A & _) FF IH]; cbn [map]; [auto|rewrite A, IH; auto]).
  assert (Ha : apot n q = apot n p) by reflexivity. assert (Hb : bpot n q = bpot n p) by reflexivity.
  assert (He : epot q (map le_ref es) <= epot p (map le_ref es)).
  { eapply epot_le; [apply (pi_lr _ _ _ _ H)|apply (pi_lr _ _ _ _ H')|auto|]. intros c h l Hi.
    destruct (Forall2_in_l _ _ _ _ HR Hi) as ([[c' h'] l'] & Hi' & (A1 & _ & A3 & _ & A5)). unfold le_ref, le_hdr, le_lits in A1, A3, A5. cbn [fst snd] in A1, A3, A5. subst c'.
    exists h', l'. split; [exact Hi'|]. change (slits (t_steps (p_trail q))) with (slits (t_steps (p_trail p))). rewrite A5. destruct (existsb _ D); [cbn [clp]; lia|]. rewrite (clp_pos _ h); auto. }
  rewrite Er. unfold phi. lia.
Qed.

(** ** The size of the lists *)
Lemma add_wpot dbg cx p h ls ad cx' p' : add_clause_verbatim dbg cx p h ls = Ret (ad, cx', p') -> wpot p' <= wpot p + 4 /\ wpot p' <= wpot p + 2 * length ls.
Proof.
  unfold add_clause_verbatim. intros H. destruct ls as [|a [|b [|c r]]].
  - inversion H; subst. unfold wpot; cbn [p_set_unsat p_watches p_binary]. lia.
  - destruct (pa_is_false _ _) as [[]| |]; cbn [bind] in H; try discriminate; [inversion H; subst; unfold wpot; cbn [p_set_unsat p_watches p_binary]; lia|].
    unfold assign in H. destruct (assign_raw _ _ _ _) as [[v t]| |]; cbn [bind] in H; try discriminate. inversion H; subst. unfold wpot; cbn [p_set_vt p_watches p_binary]. lia.
  - destruct (bin_add _ _ _) as [b'| |] eqn:E; cbn [bind] in H; try discriminate. inversion H; subst. unfold wpot.
    unfold bin_add in E. destruct (bin_push (p_binary p) a b) as [b1| |] eqn:E1; cbn [bind] in E; try discriminate.
    apply bin_push_tot in E1. apply bin_push_tot in E. cbn [p_set_binary p_watches p_binary length]. lia.
  - destruct (long_add_clause _ _ _) as [[[o|] a']| |] eqn:E; cbn [bind] in H; try discriminate.
    destruct (watch_clause _ _ _ _) as [w'| |] eqn:E1; cbn [bind] in H; try discriminate. apply watch_clause_tw in E1. inversion H; subst.
    unfold wpot. cbn [p_long p_watches p_set_watches p_set_long p_binary length] in *. lia.
Qed.
Lemma analyze_wpot dbg cx an p c cb cx' an' p' cb' : analyze_conflict dbg cx an p c cb = Ret (cx', an', p', cb') -> wpot p' <= wpot p + 4.
Proof.
  unfold analyze_conflict. intros H. destruct (negb _); [|discriminate].
  destruct (derive_1uip_clause _ _ _ _) as [[[p1 an1] cb1]| |] eqn:E1; cbn [bind] in H; try discriminate. apply derive_tw in E1 as [A1 A2].
  destruct (minimize_derived_clause _ _) as [[lv an2]| |]; cbn [bind] in H; try discriminate.
  destruct (backtrack_to_level _ _ _ _) as [[p2 cb2]| |] eqn:E2; cbn [bind] in H; try discriminate. apply back_tw in E2 as (B1 & B2 & B3).
  destruct (learn_and_assign _ _ _ _) as [[[cx3 an3] p3]| |] eqn:E3; cbn [bind] in H; try discriminate. inversion H; subst.
  assert (W2 : wpot p2 = wpot p) by (unfold wpot; rewrite B1, B2, A1, A2; reflexivity).
  rewrite <- W2. clear - E3. unfold learn_and_assign in E3.
  destruct (if dbg then _ else _); cbn [bind] in E3; try discriminate. destruct (if Nat.ltb 2 _ then _ else _) as [[h an1]| |]; cbn [bind] in E3; try discriminate.
  destruct (add_clause_verbatim _ _ _ _ _) as [[[ad cx2] p1]| |] eqn:E; cbn [bind] in E3; try discriminate. apply add_wpot in E as [E _].
  destruct (match ad with AEmpty => _ | _ => _ end); [|inversion E3; subst; auto]. destruct (vget _ _); cbn [bind] in E3; try discriminate.
  unfold assign in E3. destruct (assign_raw _ _ _ _) as [[v t]| |]; cbn [bind] in E3; try discriminate. inversion E3; subst. exact E.
Qed.
Lemma solver_add_wpot dbg s c s' : solver_add_clause dbg s c = Ret s' ->
  wpot (se_prop (sta_search (so_state s'))) <= wpot (se_prop (sta_search (so_state s))) + 2 * length c.
Proof.
  unfold solver_add_clause, search_resize. intros E. destruct (st_vars _ <? _).
  - destruct (vsids_resize _ _); cbn [bind] in E; try discriminate. destruct (add_clause_verbatim _ _ _ _ _) as [[[ad cx2] p1]| |] eqn:E1; cbn [bind] in E; try discriminate.
    inversion E; subst. apply add_wpot in E1 as [_ E1]. cbn [se_prop so_state sta_search] in *. unfold wpot at 2 in E1. unfold wpot at 2. cbn [prop_resize p_watches p_binary] in E1.
    unfold tw, watches_resize, bin_resize in *. cbn [ws_by_lit] in E1.
    pose proof (tot_resize (ws_by_lit (p_watches (se_prop (sta_search (so_state s))))) (clause_var_count c * 2)).
    pose proof (tot_resize (p_binary (se_prop (sta_search (so_state s)))) (clause_var_count c * 2)). lia.
  - cbn [bind] in E. destruct (add_clause_verbatim _ _ _ _ _) as [[[ad cx2] p1]| |] eqn:E1; cbn [bind] in E; try discriminate.
    inversion E; subst. apply add_wpot in E1 as [_ E1]. exact E1.
Qed.

(** The literals added by a proof, and those still there. *)
Definition lits (cs : list (list N)) : nat := list_sum (map (@length N) cs).
Definition asum (steps : list pstep) : nat := list_sum (map (fun s => match s with Add c => length c | Del _ => 0 end) steps).
Lemma lits_app a b : lits (a ++ b) = lits a + lits b.
Proof. unfold lits. rewrite map_app, list_sum_app. reflexivity. Qed.
Lemma asum_app a b : asum (a ++ b) = asum a + asum b.
Proof. unfold asum. rewrite map_app, list_sum_app. reflexivity. Qed.
Lemma asum_dels lls : asum (map Del lls) = 0.
Proof. induction lls as [|x l IH]; [reflexivity|]. exact IH. Qed.
Lemma run_lits F steps L : drat_run F steps L -> lits L <= asum steps.
Proof.
  assert (C : forall c l, lits (c :: l) = length c + lits l) by reflexivity.
  induction 1 as [|steps L c _ IH _|steps L1 c' L2 c _ IH _]; [auto|..]; rewrite asum_app, lits_app in *; rewrite ?C in *.
  - change (asum [Add c]) with (length c + 0). change (lits []) with 0. lia.
  - change (asum [Del c]) with 0. lia.
Qed.
Lemma lits_filter f cs : lits (filter f cs) <= lits cs.
Proof. induction cs as [|c cs IH]; [auto|]. cbn [filter]. unfold lits in *. destruct (f c); cbn [map list_sum fold_right] in *; fold (list_sum (map (@length N) cs)) in *; fold (list_sum (map (@length N) (filter f cs))) in *; lia. Qed.
Lemma lits_perm a b : Permutation a b -> lits a = lits b.
Proof. intro P. unfold lits. induction P; cbn [map list_sum fold_right] in *; unfold list_sum in *; lia. Qed.
Lemma lits_meq a b : meq a b -> lits a = lits b.
Proof.
  intros (a' & P & F). rewrite (lits_perm _ _ P). clear P. induction F as [|x y l l' H F IH]; [reflexivity|]. unfold lits in *. cbn [map list_sum fold_right].
  fold (list_sum (map (@length N) l)). fold (list_sum (map (@length N) l')). rewrite IH, (Permutation_length H). reflexivity.
Qed.
Lemma lits_live es : lits_of es = lits (live true es) + lits (live false es).
Proof.
  unfold lits_of, live. induction es as [|e es IH]; [reflexivity|]. cbn [map filter list_sum fold_right]. fold (list_sum (map (fun e => length (le_lits e)) es)). rewrite IH.
  unfold liveb, lits. destruct (le_live e) eqn:L; cbn [andb].
  - destruct (lh_redundant (le_hdr e)); cbn [Bool.eqb map list_sum fold_right]; unfold list_sum; lia.
  - destruct e as [[c h] [|x l]]; [reflexivity|discriminate].
Qed.
Lemma lits_SI K n F L steps es cx se : SI K n F L steps es cx se -> lits_of es <= lits F + asum steps.
Proof.
  intro H. pose proof (s_db _ _ _ _ _ _ _ _ H) as D. rewrite lits_live, (lits_meq _ _ (db_red _ _ _ _ _ _ D)), (lits_meq _ _ (db_irr _ _ _ _ _ _ D)).
  pose proof (lits_filter longb L). pose proof (lits_filter longb F). pose proof (run_lits _ _ _ (s_run _ _ _ _ _ _ _ _ H)). lia.
Qed.
Lemma tot_sum {A} (ls : list (list A)) : tot ls = list_sum (map (@length A) ls).
Proof. induction ls as [|x l IH]; [reflexivity|]. rewrite tot_cons, IH. reflexivity. Qed.

(** ** The invariant *)
Definition size_bound (n l c : nat) : nat := n + 6 * l + 4 * (n + 1) * c.
Record RW (w a : nat) (F : list (list N)) (cx : ctx) (se : search) (L : list (list N)) (steps : list pstep) (es : list lent) : Prop := {
  rw_si : SI 0 (cnf_vars F) F L steps es cx se;
  rw_a : asum steps <= cnf_vars F * st_conflicts (cx_stats cx);
  rw_w : wpot (se_prop se) <= 2 * lits F + 4 * st_conflicts (cx_stats cx);
  rw_b : w + (phi (cnf_vars F) (map le_ref es) (se_prop se) + (cnf_vars F - t_propagated (p_trail (se_prop se)))) <=
    (1 + st_conflicts (cx_stats cx) + st_restarts (cx_stats cx) + a) * size_bound (cnf_vars F) (lits F) (st_conflicts (cx_stats cx)) }.

Lemma phi_total n F L steps es cx se : SI 0 n F L steps es cx se -> asum steps <= n * st_conflicts (cx_stats cx) ->
  wpot (se_prop se) <= 2 * lits F + 4 * st_conflicts (cx_stats cx) ->
  phi n (map le_ref es) (se_prop se) + (n - t_propagated (p_trail (se_prop se))) <= size_bound n (lits F) (st_conflicts (cx_stats cx)).
Proof.
  intros H A W. pose proof (phi_bound _ _ _ (s_pi _ _ _ _ _ _ _ _ H)) as B. fold (lits_of es) in B. rewrite <- !tot_sum in B. change (tot (ws_by_lit (p_watches (se_prop se)))) with (tw (p_watches (se_prop se))) in B.
  pose proof (lits_SI _ _ _ _ _ _ _ _ H) as Q. unfold wpot in W. unfold size_bound. lia.
Qed.
Lemma reset_bound w w' k x B B' : w <= k * B -> B <= B' -> x <= B' -> w' = S k -> w + x <= w' * B'.
Proof. intros A C D ->. pose proof (Nat.mul_le_mono_l B B' k C). cbn. lia. Qed.
(** A new segment of the run *)
Lemma RW_reset w w' a a' F F' cx se L steps es cx' se' L' steps' es' : RW w a F cx se L steps es -> w' <= w + (phi (cnf_vars F) (map le_ref es) (se_prop se) + (cnf_vars F - t_propagated (p_trail (se_prop se)))) ->
  SI 0 (cnf_vars F') F' L' steps' es' cx' se' -> cnf_vars F <= cnf_vars F' -> lits F <= lits F' -> st_conflicts (cx_stats cx) <= st_conflicts (cx_stats cx') ->
  asum steps' <= cnf_vars F' * st_conflicts (cx_stats cx') -> wpot (se_prop se') <= 2 * lits F' + 4 * st_conflicts (cx_stats cx') ->
  S (st_conflicts (cx_stats cx) + st_restarts (cx_stats cx) + a) <= st_conflicts (cx_stats cx') + st_restarts (cx_stats cx') + a' ->
  RW w' a' F' cx' se' L' steps' es'.
Proof.
  intros H Hw H' Hn Hl Hc Ha Hp Hs. constructor; auto. pose proof (phi_total _ _ _ _ _ _ _ H' Ha Hp) as B.
  pose proof (rw_b _ _ _ _ _ _ _ _ H) as R. 
  assert (S1 : size_bound (cnf_vars F) (lits F) (st_conflicts (cx_stats cx)) <= size_bound (cnf_vars F') (lits F') (st_conflicts (cx_stats cx'))).
  { unfold size_bound. assert ((cnf_vars F + 1) * st_conflicts (cx_stats cx) <= (cnf_vars F' + 1) * st_conflicts (cx_stats cx')) by (apply Nat.mul_le_mono; lia). lia. }
  set (B1 := size_bound (cnf_vars F) (lits F) (st_conflicts (cx_stats cx))) in *. set (B2 := size_bound (cnf_vars F') (lits F') (st_conflicts (cx_stats cx'))) in *.
  pose proof (reset_bound w' _ _ _ B1 B2 (Nat.le_trans _ _ _ Hw R) S1 B eq_refl) as Q. eapply Nat.le_trans; [exact Q|]. apply Nat.mul_le_mono_r. lia.
Qed.
(** The same segment *)
Lemma RW_keep w w' a F cx se L steps es cx' se' L' steps' es' : RW w a F cx se L steps es ->
  SI 0 (cnf_vars F) F L' steps' es' cx' se' -> asum steps' = asum steps -> st_conflicts (cx_stats cx') = st_conflicts (cx_stats cx) -> st_restarts (cx_stats cx') = st_restarts (cx_stats cx) ->
  wpot (se_prop se') <= wpot (se_prop se) ->
  w' + (phi (cnf_vars F) (map le_ref es') (se_prop se') + (cnf_vars F - t_propagated (p_trail (se_prop se')))) <=
    w + (phi (cnf_vars F) (map le_ref es) (se_prop se) + (cnf_vars F - t_propagated (p_trail (se_prop se)))) ->
  RW w' a F cx' se' L' steps' es'.
Proof.
  intros H H' Ha Hc Hr Hp Hb. constructor; rewrite ?Ha, ?Hc, ?Hr; auto; try apply H.
  - eapply Nat.le_trans; [exact Hp|apply H].
  - eapply Nat.le_trans; [exact Hb|apply H].
Qed.

Lemma SI_FR n F L steps es cx se : SI 0 n F L steps es cx se -> FR (se_prop se) /\ t_propagated (p_trail (se_prop se)) <= n.
Proof.
  intro H. pose proof (s_pi _ _ _ _ _ _ _ _ H) as HP. split; [apply nodup_FR; apply dupK_0; apply (s_dup _ _ _ _ _ _ _ _ H)|].
  pose proof (trail_bound _ _ _ _ (pi_vr _ _ _ _ HP) (s_dup _ _ _ _ _ _ _ _ H)) as B. pose proof (tr_q _ _ (pi_tr _ _ _ _ HP)) as Q. unfold TR_q in Q. lia.
Qed.
Lemma RW_proof w a F cx se L steps es : RW w a F cx se L steps es -> RW w a F (mkCtx (cx_stats cx) None) se L steps es.
Proof. intros [A B C D]. constructor; auto. apply SI_proof; auto. discriminate. Qed.
Lemma RW_collect dbg w a F cx se L steps es p' : RW w a F cx se L steps es -> prop_collect_garbage dbg (se_prop se) = Ret p' ->
  exists es', RW w a F cx (with_prop se p') L steps es'.
Proof.
  intros H E. destruct (SI_gc dbg _ _ _ _ _ _ _ _ (rw_si _ _ _ _ _ _ _ _ H)) as [[E1 _]|(p1 & es1 & f & E1 & H1 & _)]; rewrite E in E1; [discriminate|].
  inversion E1; subst p1. exists es1.
  destruct (gc_phi dbg _ es _ p' es1 (s_pi _ _ _ _ _ _ _ _ (rw_si _ _ _ _ _ _ _ _ H)) E (s_pi _ _ _ _ _ _ _ _ H1)) as (A & B & _ & D).
  eapply RW_keep; [exact H|exact H1|reflexivity..|exact B|]. cbn [with_prop se_prop] in *. rewrite D. lia.
Qed.
Lemma RW_reduce select w a F cx se L steps es cx' se' : anysel select -> RW w a F cx se L steps es -> reduce select cx se = Ret (cx', se') ->
  exists L' steps' es', RW w a F cx' se' L' steps' es'.
Proof.
  intros Hs H E. pose proof (rw_si _ _ _ _ _ _ _ _ H) as HI.
  destruct (SI_reduce select _ _ _ _ _ _ _ _ _ Hs HI) as (cx1 & se1 & L1 & es1 & lls & E1 & H1 & Ecx & _ & _ & _ & _ & a' & D & Ep & R).
  rewrite E in E1. injection E1 as <- <-. exists L1, (steps ++ map Del lls), es1.
  eapply RW_keep; [exact H|exact H1|rewrite asum_app, asum_dels; lia|rewrite Ecx; reflexivity|rewrite Ecx; reflexivity|rewrite Ep; unfold wpot; cbn [p_set_long p_watches p_binary]; lia|].
  pose proof (reduce_phi _ _ _ _ _ _ _ _ _ _ (s_pi _ _ _ _ _ _ _ _ HI) R) as Q. rewrite Ep. cbn [p_set_long p_trail]. lia.
Qed.
Lemma RW_restart dbg w a F cx se L steps es cx' se' : RW w a F cx se L steps es -> restart dbg cx se = Ret (cx', se') ->
  exists es', RW w a F cx' se' L steps es'.
Proof.
  intros H E. pose proof (rw_si _ _ _ _ _ _ _ _ H) as HI. destruct (SI_restart dbg _ _ _ _ _ _ _ _ HI) as (cx1 & se1 & E1 & H1 & Ecx & _).
  rewrite E in E1. injection E1 as <- <-. exists es.
  assert (W : wpot (se_prop se') = wpot (se_prop se)).
  { unfold restart in E. destruct (Nat.ltb 0 _); [|inversion E; subst; reflexivity].
    destruct (backtrack_to_level _ _ _ _) as [[p cb]| |] eqn:Eb; cbn [bind] in E; try discriminate. apply back_tw in Eb as (A & B & _). inversion E; subst. unfold wpot. cbn [se_prop]. rewrite A, B. reflexivity. }
  assert (C : st_conflicts (cx_stats cx') = st_conflicts (cx_stats cx) /\ st_restarts (cx_stats cx') = S (st_restarts (cx_stats cx))).
  { rewrite Ecx. unfold bump_restarts, cx_with; cbn [cx_stats st_conflicts st_restarts]. split; [auto|lia]. }
  destruct C as [C1 C2]. eapply RW_reset; [exact H| |exact H1|..]; rewrite ?C1, ?C2, ?W; try apply H; lia.
Qed.

Lemma RW_step dbg w a F cx se L steps es r cx' se' k : RW w a F cx se L steps es -> search_step_n dbg cx se = Ret ((r, cx', se'), k) ->
  exists L' steps' es', RW (w + k) a F cx' se' L' steps' es'.
Proof.
  intros H E. unfold search_step_n in E. destruct (p_unsat (se_prop se)) eqn:Eu.
  { inversion E; subst. rewrite Nat.add_0_r. eauto. }
  apply bindC_ret in E as (p0 & k1 & k2 & E0 & E & ->). apply units_ret in E0 as [E0 ->].
  destruct (RW_collect dbg _ _ _ _ _ _ _ _ _ H E0) as (es0 & H0). clear H. rename H0 into H. set (se0 := with_prop se p0) in *.
  apply bindC_ret in E as ([[cx1 p1] r1] & k3 & k4 & E1 & E & ->). apply units_ret in E as [E ->].
  pose proof (rw_si _ _ _ _ _ _ _ _ H) as HI. pose proof (s_pi _ _ _ _ _ _ _ _ HI) as HP. destruct (SI_FR _ _ _ _ _ _ _ HI) as [HF Q0].
  change (se_prop se0) with p0 in HP, HF, Q0.
  assert (E1' : propagate dbg cx p0 = Ret (cx1, p1, r1)) by (apply counted_propagate; eauto).
  pose proof (propagate_pot _ _ _ _ _ _ _ _ _ HP HF E1) as PP.
  destruct (SI_propagate dbg _ _ _ _ _ _ _ _ HI) as (cx2 & p2 & es1 & r2 & E2 & H1 & HX & HQ & HR). change (se_prop se0) with p0 in *.
  rewrite E1' in E2. inversion E2; subst cx2 p2 r2. clear E2.
  pose proof (propagate_tw _ _ _ _ _ _ (pi_en _ _ _ _ HP) E1') as (W1 & W2 & _).
  assert (W : wpot p1 <= wpot p0) by (unfold wpot; rewrite W2; lia).
  pose proof (s_pi _ _ _ _ _ _ _ _ H1) as HP1. cbn [se_prop] in HP1.
  destruct (SI_FR _ _ _ _ _ _ _ H1) as [_ Q1]. cbn [se_prop] in Q1.
  pose proof (rw_w _ _ _ _ _ _ _ _ H) as W0. change (se_prop se0) with p0 in W0. pose proof (rw_a _ _ _ _ _ _ _ _ H) as A0.
  destruct r1 as [c|].
  - destruct HR as [HC ->].
    assert (H2 : SI 0 (cnf_vars F) F L steps es1 (bump_conflicts cx) (mkSearch p1 (se_analysis se0) (se_vsids se0) (se_phases se0))).
    { eapply SI_ctx; [exact H1|..]; try reflexivity. apply H1. }
    assert (C1 : st_conflicts (cx_stats (bump_conflicts cx)) = S (st_conflicts (cx_stats cx)) /\ st_restarts (cx_stats (bump_conflicts cx)) = st_restarts (cx_stats cx)).
    { unfold bump_conflicts, cx_with; cbn [cx_stats st_conflicts st_restarts]. split; [lia|auto]. }
    destruct C1 as [C1 C2].
    destruct (Nat.eqb_spec (decision_level (p_trail p1)) 0) as [Hd|Hd].
    + inversion E; subst r cx' se'. exists L, steps, es1.
      assert (UC : up_conflict (L ++ F) []).
      { eapply conf_zero; [apply (s_pi _ _ _ _ _ _ _ _ H2)|apply (s_db _ _ _ _ _ _ _ _ H2)|exact HC|exact Hd]. }
      assert (H3 : SI 0 (cnf_vars F) F L steps es1 (bump_conflicts cx) (mkSearch (p_set_unsat p1 true) (se_analysis se) (se_vsids se) (se_phases se))).
      { constructor; cbn [with_prop se_prop se_analysis se_vsids se_phases p_set_unsat p_trail p_binary p_values p_long p_watches]; try apply H2.
        - constructor; cbn [p_set_unsat p_trail p_binary p_values p_long p_watches]; apply HP1.
        - cbn [p_unsat p_set_unsat]. eapply DBR_us; apply H2.
        - intros _. eapply refuted_now; eauto. apply H2. }
      eapply RW_reset; [exact H| |exact H3|..]; rewrite ?C1, ?C2; auto; try lia.
      * change (se_prop se0) with p0. lia.
      * unfold wpot in *. cbn [se_prop p_set_unsat p_watches p_binary]. lia.
    + destruct (SI_analyze_nd dbg _ _ _ _ _ _ _ _ c H2 HC) as [[E4 _]|R]; [cbn [se_prop]; lia|cbn [se_analysis se_prop se_vsids se_phases se0 with_prop] in E4; rewrite E4 in E; discriminate|].
      destruct R as (cx5 & an5 & p5 & cb5 & es5 & cl & level & target & r5 & a5 & E5 & H5 & _ & _ & _ & _ & (h & Ecx) & _ & ND & NF).
      cbn [se_analysis se_prop se_vsids se_phases se0 with_prop] in E5, NF. pose proof (analyze_wpot _ _ _ _ _ _ _ _ _ _ E5) as W5.
      rewrite E5 in E. cbn [bind] in E. inversion E; subst r cx' se'. exists (L ++ [cl]), (steps ++ [Add cl]), es5.
      assert (Lc : length cl <= cnf_vars F).
      { pose proof (trail_bound _ _ _ _ (pi_vr _ _ _ _ HP1) (s_dup _ _ _ _ _ _ _ _ H1)) as B. cbn [se_prop] in B.
        eapply Nat.le_trans; [|exact B]. rewrite <- (map_length neg cl), <- (map_length s_lit). apply NoDup_incl_length.
        - apply FinFun.Injective_map_NoDup; [|exact ND]. intros x y Exy. apply (f_equal neg) in Exy. rewrite !neg_neg in Exy. exact Exy.
        - intros y Hy. apply in_map_iff in Hy as (x & <- & Hx). apply NF. exact Hx. }
      assert (D1 : st_conflicts (cx_stats cx5) = S (st_conflicts (cx_stats cx)) /\ st_restarts (cx_stats cx5) = st_restarts (cx_stats cx)).
      { rewrite Ecx. cbn [cx_stats]. rewrite <- C1, <- C2. unfold st_add. destruct cl as [|? [|? [|]]]; auto. destruct (lh_redundant h); auto. }
      destruct D1 as [D1 D2]. eapply RW_reset; [exact H| |exact H5|..]; rewrite ?D1, ?D2; auto; try lia.
      * change (se_prop se0) with p0. lia.
      * rewrite asum_app. cbn [asum map list_sum fold_right]. lia.
      * cbn [se_prop]. lia.
  - destruct HR as [HQ1 Ecx]. destruct PP as [PP _].
    assert (X1 : st_conflicts (cx_stats cx1) = st_conflicts (cx_stats cx) /\ st_restarts (cx_stats cx1) = st_restarts (cx_stats cx)) by (rewrite Ecx; split; reflexivity).
    destruct X1 as [X1 X2].
    assert (EE : phi (cnf_vars F) (map le_ref es1) p1 = phi (cnf_vars F) (map le_ref es0) p1).
    { destruct (propagate_ok _ es0 dbg cx p0 HP) as (cx3 & p3 & es3 & r3 & E3 & H3 & HE & _). rewrite E1' in E3. inversion E3; subst cx3 p3 r3.
      rewrite <- (ESR_refs _ _ HE). apply phi_unique; [apply HP1|apply H3]. }
    destruct (pop_decision_ok (cnf_vars F) (p_values p1) (slits (t_steps (p_trail p1))) (se_vsids se) (se_phases se)) as (o & vs' & E6 & HC & _ & _ & _ & HO).
    { apply HP1. } { apply (s_cb _ _ _ _ _ _ _ _ H1). } { apply (s_cov _ _ _ _ _ _ _ _ H1). }
    rewrite E6 in E. cbn [bind] in E. destruct o as [v|].
    + destruct HO as (Hv & Nv & Hcov & _).
      assert (H2 : SI 0 (cnf_vars F) F L steps es1 (bump_decisions cx1) (mkSearch p1 (se_analysis se) (se_vsids se) (se_phases se))).
      { eapply SI_ctx; [exact H1|..]; try reflexivity. apply H1. }
      destruct (SI_decide dbg _ _ _ _ _ _ _ _ vs' v H2 HQ1 Hv Nv HC Hcov) as (l' & p4 & El & _ & Evl & E7 & H7 & Ess & _).
      cbn [se_prop se_phases] in El, E7. rewrite El in E. cbn [bind] in E. rewrite E7 in E. cbn [bind] in E. inversion E; subst r cx' se'.
      exists L, steps, es1.
      assert (N1 : forall x, vidx x = v -> ~ In x (slits (t_steps (p_trail p1)))).
      { intros x Ex Hx. apply Nv. exists x. auto. }
      destruct (assign_decision_ok (cnf_vars F) dbg p1 l' (pi_tr _ _ _ _ HP1) (pi_vr _ _ _ _ HP1) ltac:(lia) (N1 _ Evl) (N1 _ ltac:(rewrite vidx_neg; exact Evl))) as (v' & E8 & _).
      rewrite E7 in E8. inversion E8; subst p4. pose proof (decide_pot _ es1 p1 l' v' HP1) as DP.
      eapply RW_keep; [exact H|exact H7|reflexivity|..].
      * cbn [bump_decisions cx_with cx_stats st_conflicts]. exact X1.
      * cbn [bump_decisions cx_with cx_stats st_restarts]. exact X2.
      * change (se_prop se0) with p0. unfold wpot in *. cbn [se_prop p_set_vt p_watches p_binary]. lia.
      * change (se_prop se0) with p0. cbn [se_prop] in *. change (t_propagated (p_trail (p_set_vt p1 v' (t_decide (p_trail p1) l')))) with (t_propagated (p_trail p1)). lia.
    + inversion E; subst r cx' se'. destruct HO as [Hcov _]. exists L, steps, es1.
      eapply RW_keep; [exact H| |reflexivity|exact X1|exact X2|change (se_prop se0) with p0; exact W|change (se_prop se0) with p0; cbn [se_prop]; lia].
      constructor; cbn [se_prop se_analysis se_vsids se_phases]; auto; apply H1.
Qed.

Lemma RW_schedule select dbg w a F cx st L steps es r cx' st' k : anysel select -> RW w a F cx (sta_search st) L steps es ->
  schedule_search_step_n select dbg cx st = Ret ((r, cx', st'), k) ->
  exists L' steps' es', RW (w + k) a F cx' (sta_search st') L' steps' es'.
Proof.
  intros Hs H E. unfold schedule_search_step_n in E. destruct (should_restart _ _) as [dr sc1].
  apply bindC_ret in E as ([cx1 se1] & k1 & k2 & E1 & E & ->). apply units_ret in E1 as [E1 ->].
  assert (H1 : exists es1, RW w a F cx1 se1 L steps es1).
  { destruct dr; [eapply RW_restart; eauto|]. inversion E1; subst. eauto. }
  destruct H1 as (es1 & H1). destruct (should_reduce _ _) as [dd sc2].
  apply bindC_ret in E as ([cx2 se2] & k3 & k4 & E2 & E & ->). apply units_ret in E2 as [E2 ->].
  assert (H2 : exists L2 steps2 es2, RW w a F cx2 se2 L2 steps2 es2).
  { destruct dd; [|inversion E2; subst; eauto]. destruct (reduce select cx1 se1) as [[cx4 se4]| |] eqn:E4; cbn [bind] in E2; try discriminate.
    destruct (report _ _); cbn [bind] in E2; try discriminate. inversion E2; subst. eapply RW_reduce; eauto. }
  destruct H2 as (L2 & steps2 & es2 & H2).
  apply bindC_ret in E as ([[r3 cx3] se3] & k5 & k6 & E3 & E & ->). inversion E; subst. cbn [sta_search]. rewrite Nat.add_0_r. eapply RW_step; eauto.
Qed.
Lemma lits_snoc F c : lits (F ++ [c]) = lits F + length c.
Proof. rewrite lits_app. unfold lits at 2. cbn. lia. Qed.
Lemma RW_built dbg F s : built dbg F s -> nodup_start dbg F -> exists L steps es, RW 0 0 F (so_ctx s) (sta_search (so_state s)) L steps es.
Proof.
  intros HB D. pose proof HB as H. apply PSI_built in H. destruct H as [(es & H) A1 A2 A3 A4 A5 [A6 A7]].
  assert (HS : SOI 0 (cnf_vars F) F [] [] es s).
  { destruct dbg; [exact H|]. destruct D as [D|D]; [discriminate|]. destruct H as [X1 X2 X3 X4 X5 X6 X7 X8 X9 X10 X11 X12 X13]. constructor; auto.
    + apply dupK_0. apply (proj2 (built_trail _ _ _ HB) D).
    + rewrite (proj2 (built_counters _ _ _ HB)). lia. }
  exists [], [], es.
  assert (W : wpot (se_prop (sta_search (so_state s))) <= 2 * lits F).
  { clear -HB. induction HB as [|F s c s' HB IH Hc E|F s HB IH|F s HB IH]; auto. apply solver_add_wpot in E. rewrite lits_snoc. lia. }
  assert (A : asum [] <= cnf_vars F * st_conflicts (cx_stats (so_ctx s))) by (cbn; lia).
  assert (W' : wpot (se_prop (sta_search (so_state s))) <= 2 * lits F + 4 * st_conflicts (cx_stats (so_ctx s))) by lia.
  constructor; auto. pose proof (phi_total _ _ _ _ _ _ _ HS A W') as P. rewrite A7, A6 in *. rewrite !Nat.add_0_r, Nat.mul_1_l. exact P.
Qed.
Lemma RW_add dbg w a F s c s' L steps es : RW w a F (so_ctx s) (sta_search (so_state s)) L steps es -> valid_clause c -> watchable s c ->
  solver_add_clause dbg s c = Ret s' -> exists es', RW w (S a) (F ++ [c]) (so_ctx s') (sta_search (so_state s')) L steps es'.
Proof.
  intros H Hc Hw E. destruct (late_add_core dbg _ _ _ _ _ s c (rw_si _ _ _ _ _ _ _ _ H) Hc Hw) as [[E1 _]|(s1 & es1 & E1 & H1 & R & _)]; rewrite E1 in E; [discriminate|].
  inversion E; subst s1. exists es1. destruct (add_counters _ _ _ _ E1) as [C _]. unfold counters in C. injection C as _ _ C1 C2 _.
  pose proof (solver_add_wpot _ _ _ _ E1) as W. pose proof (rw_w _ _ _ _ _ _ _ _ H) as W0. pose proof (rw_a _ _ _ _ _ _ _ _ H) as A0.
  assert (V : cnf_vars F <= cnf_vars (F ++ [c])) by (rewrite cnf_vars_snoc; lia).
  eapply RW_reset; [exact H| |exact H1|..]; rewrite ?C1, ?C2, ?lits_snoc; try lia.
  eapply Nat.le_trans; [exact A0|]. apply Nat.mul_le_mono_r. exact V.
Qed.
