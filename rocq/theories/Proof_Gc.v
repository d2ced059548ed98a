(** Garbage collection and rebuilding of watch lists. *)
From Coq Require Import NArith List Bool Arith Lia Permutation Sorted ZifyN ZifyNat ZifyBool.
From Verif Require Import Model_Base Model_Lit Model_PartialAssignment Model_Header Model_Arena Model_MutScan Model_Prop
  Spec Drivers_Arena Proof_Base Proof_PA Proof_Lit Proof_Header Proof_Arena
  Proof_ArenaHist Proof_Long Proof_Trail Proof_Inv Proof_Propagate Proof_PropOps.
Import ListNotations.

Definition gcf (gaps : list gap) (c : nat) : option nat :=
  match gc_update gaps c with Ret o => o | _ => None end.
Definition gcf' (gaps : list gap) (c : nat) : nat := match gcf gaps c with Some c' => c' | None => 0 end.

Definition gc_step (f : nat -> nat) (s : step) : step :=
  match s_reason s with RLong c => mkStep (s_lit s) (s_level s) (RLong (f c)) | _ => s end.
Definition gc_trail (f : nat -> nat) (t : trail) : trail :=
  mkTrail (t_index t) (map (gc_step f) (t_steps t)) (t_propagated t) (t_decisions t).

Lemma gc_step_lit f s : s_lit (gc_step f s) = s_lit s.
Proof. unfold gc_step. destruct (s_reason s); reflexivity. Qed.
Lemma gc_step_level f s : s_level (gc_step f s) = s_level s.
Proof. unfold gc_step. destruct (s_reason s); reflexivity. Qed.
Lemma gc_slits f ss : slits (map (gc_step f) ss) = slits ss.
Proof. rewrite map_map. apply map_ext. apply gc_step_lit. Qed.
Lemma gc_lpos f ss l : lpos (map (gc_step f) ss) l = lpos ss l.
Proof. induction ss; simpl; auto. rewrite IHss, gc_step_lit. auto. Qed.
Lemma gc_slev f ss l : slev (map (gc_step f) ss) l = slev ss l.
Proof.
  unfold slev. induction ss; simpl; auto. rewrite gc_step_lit. destruct (_ =? _)%N; auto. apply gc_step_level.
Qed.
Lemma gc_reason f s r : s_reason (gc_step f s) = r -> (forall c, r <> RLong c) -> s_reason s = r.
Proof.
  intros G Hn. unfold gc_step in G. destruct (s_reason s) eqn:E; try congruence. simpl in G. exfalso. apply (Hn (f c)). auto.
Qed.
Lemma gc_reason' f s r : s_reason s = r -> (forall c, r <> RLong c) -> s_reason (gc_step f s) = r.
Proof.
  intros G Hn. unfold gc_step. destruct (s_reason s) eqn:E; try congruence; exfalso; apply (Hn c); auto.
Qed.

Lemma gc_nth f ss i s' : nth_error (map (gc_step f) ss) i = Some s' -> exists s, nth_error ss i = Some s /\ s' = gc_step f s.
Proof. rewrite nth_error_map. destruct (nth_error ss i); simpl; intro H; inv H. eauto. Qed.

Lemma TR_gc n t f : TR n t -> TR n (gc_trail f t).
Proof.
  intro H. constructor; cbn [gc_trail t_index t_steps t_propagated t_decisions]; try apply H.
  - intros l Hl. rewrite gc_slits in Hl. rewrite gc_lpos. apply H; auto.
  - intros i j si sj L A B E. apply gc_nth in A as (a & A & ->). apply gc_nth in B as (b & B & ->).
    rewrite !gc_step_lit in E. rewrite !gc_step_level. destruct (tr_dup _ _ H _ _ _ _ L A B E) as (? & R1 & R2).
    split; auto. split; apply gc_reason'; auto; discriminate.
  - intros d Hd. rewrite map_length. apply H; auto.
  - intros i s E. apply gc_nth in E as (a & E & ->). rewrite gc_step_level. apply H; auto.
  - intros i s E. apply gc_nth in E as (a & E & ->). rewrite <- (tr_rdec _ _ H _ _ E). split; intro G.
    + apply gc_reason in G; auto; discriminate.
    + apply gc_reason'; auto; discriminate.
  - rewrite map_length. apply H.
Qed.

Definition gc_watch (gaps : list gap) (x : watch) : list watch :=
  match gcf gaps (w_clause x) with Some c => [mkWatch c (w_blocking x)] | None => [] end.

Lemma gc_scan gaps wl : (forall w, In w wl -> exists o, gc_update gaps (w_clause w) = Ret o) ->
  scan_list (fun (u : unit) x =>
            let* c := gc_update gaps (w_clause x) in
            match c with
            | Some c => Ret (u, MSKeep (mkWatch c (w_blocking x)))
            | None => Ret (u, MSRemove)
            end) wl tt = Ret (tt, flat_map (gc_watch gaps) wl).
Proof.
  induction wl as [|w r IH]; intro H; [reflexivity|]. cbn [scan_list flat_map].
  destruct (H w (or_introl eq_refl)) as [o E]. unfold gc_watch at 1, gcf. rewrite E. cbn [bind].
  assert (IH' := IH ltac:(intros; apply H; simpl; auto)).
  destruct o as [c|]; cbn [bind]; rewrite IH'; reflexivity.
Qed.

(** The old and the new clause entries. *)
Definition GCE (gaps : list gap) (es es' : list lent) : Prop :=
  Forall2 (fun e e' => gc_update gaps (le_ref e) = Ret (Some (le_ref e')) /\
                       le_hdr e' = le_hdr e /\ le_lits e' = le_lits e) (filter le_live es) es'.

Lemma le_live_ne c h l : le_live (c, h, l) = true <-> l <> [].
Proof. unfold le_live, le_lits. simpl. destruct l; simpl; split; intro; congruence. Qed.

Lemma GCE_in gaps es es' c h l : GCE gaps es es' -> In (c, h, l) es -> l <> [] ->
  exists c', gc_update gaps c = Ret (Some c') /\ In (c', h, l) es'.
Proof.
  intros F Hi Hl. assert (Hf : In (c, h, l) (filter le_live es)) by (apply filter_In; split; auto; apply le_live_ne; auto).
  unfold GCE in F. induction F as [|e e' r r' (A & B & C) F IH]; [contradiction|]. destruct Hf as [->|Hf].
  - destruct e' as [[c' h'] l']. unfold le_ref, le_hdr, le_lits in *. simpl in *. subst. eauto.
  - destruct (IH Hf) as (c' & D & E). simpl; eauto.
Qed.
Lemma GCE_in_rev gaps es es' c' h l : GCE gaps es es' -> In (c', h, l) es' ->
  exists c, gc_update gaps c = Ret (Some c') /\ In (c, h, l) es /\ l <> [].
Proof.
  intros F Hi. unfold GCE in F. assert (Hs : forall e, In e (filter le_live es) -> In e es /\ le_live e = true) by (intros; apply filter_In; auto).
  induction F as [|e e' r r' (A & B & C) F IH]; [contradiction|]. destruct Hi as [->|Hi].
  - destruct e as [[c h'] l']. unfold le_ref, le_hdr, le_lits in *. simpl in *. subst.
    destruct (Hs (c, h', l') (or_introl eq_refl)) as [H1 H2]. exists c. split; auto. split; auto. eapply le_live_ne; eauto.
  - apply IH; auto. intros; apply Hs; simpl; auto.
Qed.
Lemma GCE_inj gaps es es' c1 h1 l1 c2 h2 l2 c' : GCE gaps es es' -> NoDup (map le_ref es') ->
  In (c1, h1, l1) es -> l1 <> [] -> In (c2, h2, l2) es -> l2 <> [] ->
  gc_update gaps c1 = Ret (Some c') -> gc_update gaps c2 = Ret (Some c') -> c1 = c2.
Proof.
  intros F ND H1 N1 H2 N2 G1 G2.
  assert (Hf1 : In (c1, h1, l1) (filter le_live es)) by (apply filter_In; split; auto; apply le_live_ne; auto).
  assert (Hf2 : In (c2, h2, l2) (filter le_live es)) by (apply filter_In; split; auto; apply le_live_ne; auto).
  clear H1 H2. unfold GCE in F.
  assert (P : forall e r r', Forall2 (fun e e' => gc_update gaps (le_ref e) = Ret (Some (le_ref e')) /\
                       le_hdr e' = le_hdr e /\ le_lits e' = le_lits e) r r' -> In e r -> gc_update gaps (le_ref e) = Ret (Some c') -> In c' (map le_ref r')).
  { clear. intros e r r' F. induction F as [|x y r r' (A & _) F IH]; [contradiction|]. intros [->|Hi] E; simpl.
    - left. congruence.
    - right. auto. }
  induction F as [|e e' r r' (A & B & C) F IH]; [contradiction|]. simpl in ND. apply NoDup_cons_iff in ND as [ND1 ND2].
  destruct Hf1 as [E1|Hf1], Hf2 as [E2|Hf2]; auto.
  - congruence.
  - exfalso. apply ND1. subst e. assert (le_ref e' = c') as -> by (unfold le_ref in A at 1; simpl in A; congruence).
    eapply P; eauto.
  - exfalso. apply ND1. subst e. assert (le_ref e' = c') as -> by (unfold le_ref in A at 1; simpl in A; congruence).
    eapply P; eauto.
Qed.

Lemma wcnt_gc gaps c c' ws : gcf gaps c = Some c' ->
  (forall w, In w ws -> gcf gaps (w_clause w) = Some c' -> w_clause w = c) ->
  wcnt c' (flat_map (gc_watch gaps) ws) = wcnt c ws.
Proof.
  intros Hc. induction ws as [|w r IH]; intro H; [reflexivity|]. cbn [flat_map].
  rewrite wcnt_app, IH by (intros; apply H; simpl; auto).
  unfold gc_watch. pose proof (H w (or_introl eq_refl)) as Hw. unfold wcnt. cbn [map count_occ].
  destruct (gcf gaps (w_clause w)) as [d|] eqn:E; cbn [map count_occ w_clause].
  - destruct (Nat.eq_dec d c') as [Ed|Ne]; destruct (Nat.eq_dec (w_clause w) c) as [Ec|Nc].
    + reflexivity.
    + exfalso. apply Nc, Hw. congruence.
    + exfalso. apply Ne. congruence.
    + reflexivity.
  - destruct (Nat.eq_dec (w_clause w) c) as [Ec|Nc]; [congruence|]. simpl. auto.
Qed.

Lemma collect_ok n es dbg p : PI n es p ->
  (collect_garbage_now dbg p = Panic PFull /\ (LITIDX_MAX < N.of_nat (length (a_buffer (p_long p))))%N) \/
  exists gaps a' es' w', collect_garbage_now dbg p = Ret (mkProp (p_unsat p) (p_values p) (p_binary p) a' w' (gc_trail (gcf' gaps) (p_trail p))) /\
    PI n es' (mkProp (p_unsat p) (p_values p) (p_binary p) a' w' (gc_trail (gcf' gaps) (p_trail p))) /\ GCE gaps es es'.
Proof.
  intro H. unfold collect_garbage_now. destruct (N.leb_spec (N.of_nat (length (a_buffer (p_long p)))) LITIDX_MAX) as [B|B]; [right|left; auto].
  assert (B' : (N.of_nat (length (a_buffer (p_long p))) < 4294967296)%N) by (unfold LITIDX_MAX in B; lia).
  destruct (LR_collect _ _ (pi_lr _ _ _ _ H) B') as (a' & gaps & es' & E & HL & F & D). rewrite E. cbn [bind].
  change (GCE gaps es es') in F. pose proof (LR_nodup _ _ HL) as ND.
  (* every entry is mapped *)
  assert (Hm : forall c h l, In (c, h, l) es -> exists o, gc_update gaps c = Ret o /\ (l <> [] -> exists c', o = Some c' /\ In (c', h, l) es') /\ (l = [] -> o = None)).
  { intros c h l Hi. destruct l as [|x l].
    - exists None. split; [apply (D (c, h, []) Hi); reflexivity|]. split; [congruence|auto].
    - destruct (GCE_in _ _ _ _ _ _ F Hi ltac:(discriminate)) as (c' & A & A'). exists (Some c'). split; auto. split; [eauto|discriminate]. }
  assert (Et : trail_update_refs (p_trail p) gaps = Ret (gc_trail (gcf' gaps) (p_trail p))).
  { unfold trail_update_refs. erewrite (mapM_map _ (gc_step (gcf' gaps))); [reflexivity|].
    intros s Hs. unfold gc_step. apply In_nth_error in Hs as [i Hi]. pose proof (pi_ri _ _ _ _ H i s Hi) as R.
    destruct (s_reason s) as [| |x|c]; auto. destruct R as (h & r & A & _).
    destruct (Hm _ _ _ A) as (o & O1 & O2 & _). destruct O2 as (c' & -> & _); [discriminate|].
    rewrite O1. cbn [bind]. unfold gcf', gcf. rewrite O1. reflexivity. }
  rewrite Et. cbn [bind]. set (bl := ws_by_lit (p_watches p)).
  assert (Hin : forall wl, In wl bl -> exists x, vidx x < n /\ wl = wfun bl x).
  { intros wl Hi. apply (In_nth _ _ []) in Hi as (i & Hi & <-). exists (N.of_nat i). unfold wfun, cidx.
    rewrite Nat2N.id. split; auto. apply cidx_lt. unfold cidx. rewrite Nat2N.id. unfold bl in Hi. rewrite (pi_wl _ _ _ _ H) in Hi. auto. }
  pose proof (pi_wf _ _ _ _ H) as W.
  assert (Ew : watches_update_refs dbg (p_watches p) gaps = Ret (mkWatches (map (flat_map (gc_watch gaps)) bl) true)).
  { unfold watches_update_refs. rewrite (pi_en _ _ _ _ H). unfold dassert. cbn [negb]. rewrite andb_false_r. fold bl.
    erewrite (mapM_map _ (flat_map (gc_watch gaps))); [reflexivity|].
    intros wl Hi. destruct (Hin _ Hi) as (x & Hx & ->). rewrite gc_scan; [reflexivity|].
    intros w Hw. destruct (wf_ref _ _ _ W _ _ Hx Hw) as (_ & h & l & A & _). destruct (Hm _ _ _ A) as (o & O & _). eauto. }
  rewrite Ew. cbn [bind]. exists gaps, a', es', (mkWatches (map (flat_map (gc_watch gaps)) bl) true).
  split; [reflexivity|]. split; [|exact F].
  assert (HW : forall x, wfun (map (flat_map (gc_watch gaps)) bl) x = flat_map (gc_watch gaps) (wfun bl x)).
  { intro x. unfold wfun. change [] with (flat_map (gc_watch gaps) []) at 1. apply map_nth. }
  constructor; cbn [p_trail p_values p_long p_binary p_watches ws_enabled ws_by_lit]; try apply H; auto.
  - apply TR_gc. apply H.
  - cbn [gc_trail t_steps]. rewrite gc_slits. apply H.
  - intros c h l Hi Hne. destruct (GCE_in_rev _ _ _ _ _ _ F Hi) as (c0 & _ & A & _). apply (pi_ll _ _ _ _ H _ _ _ A Hne).
  - cbn [gc_trail t_steps]. intros i s' E'. apply gc_nth in E' as (s & Es & ->). pose proof (pi_ri _ _ _ _ H i s Es) as R.
    assert (Hb : forall l, before (t_steps (p_trail p)) i l -> before (map (gc_step (gcf' gaps)) (t_steps (p_trail p))) i l).
    { intros l (j & G1 & G2). exists j. rewrite gc_lpos. auto. }
    unfold gc_step. destruct (s_reason s) as [| |x|c] eqn:Er; cbn [s_reason s_lit s_level]; rewrite ?Er; auto.
    + destruct R; auto.
    + destruct R as (h & r & A & A'). destruct (Hm _ _ _ A) as (o & O1 & O2 & _). destruct O2 as (c' & -> & G); [discriminate|].
      exists h, r. unfold gcf', gcf. rewrite O1. auto.
  - rewrite map_length. apply H.
  - constructor.
    + intros x w Hx Hw. rewrite HW in Hw. apply in_flat_map in Hw as (w0 & Hw0 & Hw).
      destruct (wf_ref _ _ _ W _ _ Hx Hw0) as (V & h & l & A & A'). destruct (Hm _ _ _ A) as (o & O1 & O2 & O3).
      unfold gc_watch, gcf in Hw. rewrite O1 in Hw. destruct o as [c'|]; [|contradiction]. destruct Hw as [<-|[]]. cbn [w_blocking w_clause].
      split; auto. destruct l as [|y l]; [specialize (O3 eq_refl); discriminate|].
      destruct (O2 ltac:(discriminate)) as (c2 & E2 & I2). inv E2. exists h, (y :: l). auto.
    + intros c' h a b r Hi x Hx. destruct (GCE_in_rev _ _ _ _ _ _ F Hi) as (c & G & A & _).
      rewrite HW, (wcnt_gc gaps c c'); [apply (wf_cnt _ _ _ W _ _ _ _ _ A); auto|unfold gcf; rewrite G; auto|].
      intros w Hw Hg. destruct (wf_ref _ _ _ W _ _ Hx Hw) as (_ & h2 & l2 & A2 & _).
      destruct (Hm _ _ _ A2) as (o & O1 & O2 & O3). unfold gcf in Hg. rewrite O1 in Hg. subst o.
      eapply (GCE_inj gaps es es'); eauto; [|discriminate]. intros ->. specialize (O3 eq_refl). discriminate.
  - cbn [gc_trail t_steps t_propagated]. intros c' h a b r Hi w Hw Hn.
    destruct (GCE_in_rev _ _ _ _ _ _ F Hi) as (c & _ & A & _). rewrite <- firstn_map, gc_slits, firstn_map in Hn.
    destruct (pi_pl _ _ _ _ H _ _ _ _ _ A w Hw Hn) as (t & T1 & T2 & T3). exists t. rewrite gc_slits, !gc_slev. auto.
  - cbn [gc_trail t_steps t_propagated]. intros x y Hx Hy Hn. rewrite <- firstn_map, gc_slits, firstn_map in Hn.
    rewrite gc_slits, !gc_slev. apply (pi_pb _ _ _ _ H); auto.
Qed.

(** ** Iteration over live clauses *)
Lemma first_live_some es c : first_live_l es = Some c ->
  exists d e r, es = d ++ e :: r /\ (forall x, In x d -> le_live x = false) /\ le_live e = true /\ le_ref e = c.
Proof.
  induction es as [|e r IH]; simpl; [discriminate|]. destruct (le_live e) eqn:E; intro H.
  - inv H. exists [], e, r. simpl. intuition.
  - destruct (IH H) as (d & e' & r' & -> & A & B). exists (e :: d), e', r'. split; auto. split; auto.
    intros x [<-|Hx]; auto.
Qed.
Lemma first_live_none es : first_live_l es = None -> forall x, In x es -> le_live x = false.
Proof.
  induction es as [|e r IH]; simpl; intros H x Hx; [contradiction|]. destruct (le_live e) eqn:E; [discriminate|].
  destruct Hx as [<-|Hx]; auto.
Qed.

(** [iter] is where an iteration stands that has visited [es1]. *)
Definition at_iter (es1 : list lent) (iter : option nat) : Prop :=
  match iter with
  | None => es1 = []
  | Some c => exists es0 e, es1 = es0 ++ [e] /\ le_ref e = c
  end.

Lemma next_at a es1 es2 iter : LR a (es1 ++ es2) -> at_iter es1 iter -> long_next a iter = Ret (first_live_l es2).
Proof.
  intros H HI. destruct iter as [c|]; simpl in HI.
  - destruct HI as (es0 & e & -> & <-). rewrite <- app_assoc in H. eapply LR_next_some; exact H.
  - subst. apply LR_next_none. auto.
Qed.

(** ** Disabling and re-enabling the watch lists *)

(** The watches clause [e] contributes to the list of [x]. *)
Definition wof (x : N) (e : lent) : list watch :=
  match le_lits e with
  | a :: b :: _ => (if (x =? a)%N then [mkWatch (le_ref e) b] else []) ++ (if (x =? b)%N then [mkWatch (le_ref e) a] else [])
  | _ => []
  end.

Lemma wof_dead x d : (forall e, In e d -> le_live e = false) -> flat_map (wof x) d = [].
Proof.
  induction d as [|[[c h] l] d IH]; simpl; intro H; auto. rewrite IH by auto. rewrite app_nil_r.
  specialize (H _ (or_introl eq_refl)). unfold le_live, le_lits in H. simpl in H. destruct l; [reflexivity|discriminate].
Qed.

Lemma rebuild_loop_ok n a k : forall fuel es1 es2 iter w, length es2 <= k -> k < fuel ->
  LR a (es1 ++ es2) -> at_iter es1 iter ->
  (forall c h l, In (c, h, l) es2 -> l <> [] -> 2 <= length l /\ (forall x, In x l -> vidx x < n)) ->
  ws_enabled w = true -> length (ws_by_lit w) = 2 * n ->
  exists w', rebuild_loop fuel a iter w = Ret w' /\ ws_enabled w' = true /\ length (ws_by_lit w') = 2 * n /\
    forall x, wfun (ws_by_lit w') x = wfun (ws_by_lit w) x ++ flat_map (wof x) es2.
Proof.
  induction k as [|k IH]; intros fuel es1 es2 iter w Hk Hf HL HI HV He Hl; (destruct fuel as [|f]; [lia|]);
    cbn [rebuild_loop]; rewrite (next_at _ _ _ _ HL HI); cbn [bind].
  - destruct es2; [|simpl in Hk; lia]. simpl. exists w. split; auto. split; auto. split; auto. intro. rewrite app_nil_r. auto.
  - destruct (first_live_l es2) as [c|] eqn:E.
    + destruct (first_live_some _ _ E) as (d & [[c' h] l] & r & -> & Hd & Hlive & Hc). unfold le_ref in Hc; simpl in Hc; subst c'.
      apply le_live_ne in Hlive as Hne.
      destruct (HV c h l ltac:(apply in_elt) Hne) as (H2 & Hx). destruct l as [|l0 [|l1 r1]]; simpl in H2; try lia.
      rewrite (LR_lits _ _ HL c h (l0 :: l1 :: r1)) by (apply in_or_app; right; apply in_elt). cbn [bind vget nth_error].
      destruct (watch_clause_ok n w c l0 l1 He Hl) as (w1 & E1 & A1 & B1 & C1); [apply Hx; simpl; auto|apply Hx; simpl; auto|].
      rewrite E1. cbn [bind].
      destruct (IH f (es1 ++ d ++ [(c, h, l0 :: l1 :: r1)]) r (Some c) w1) as (w' & E' & A' & B' & C'); auto; try lia.
      * rewrite app_length in Hk. simpl in Hk. lia.
      * rewrite <- !app_assoc. simpl. exact HL.
      * exists (es1 ++ d), (c, h, l0 :: l1 :: r1). rewrite app_assoc. auto.
      * intros c2 h2 l2 Hi. apply (HV c2 h2). apply in_or_app; simpl; auto.
      * exists w'. split; auto. split; auto. split; auto. intro x. rewrite C', C1. unfold wadd.
        rewrite flat_map_app, (wof_dead x d) by auto. cbn [flat_map app]. unfold wof at 2. unfold le_lits, le_ref. cbn [fst snd].
        rewrite <- !app_assoc. reflexivity.
    + exists w. split; auto. split; auto. split; auto. intro x. rewrite wof_dead; [rewrite app_nil_r; auto|].
      apply first_live_none; auto.
Qed.

Lemma nth_nils {A B} (l : list A) i : nth i (map (fun _ => @nil B) l) [] = [].
Proof. revert i; induction l; intros [|i]; simpl; auto. Qed.

(** [enable_watch_lists(false)] followed by [enable_watch_lists(true)]. *)
Lemma enable_cycle_ok n es dbg p :
  LR (p_long p) es -> (forall c h l, In (c, h, l) es -> l <> [] -> 2 <= length l /\ (forall x, In x l -> vidx x < n)) ->
  length (ws_by_lit (p_watches p)) = 2 * n -> ws_enabled (p_watches p) = true ->
  exists p1 w', enable_watch_lists dbg p false = Ret p1 /\ ws_enabled (p_watches p1) = false /\
    (forall x, wfun (ws_by_lit (p_watches p1)) x = []) /\
    enable_watch_lists dbg p1 true = Ret (p_set_watches p w') /\
    ws_enabled w' = true /\ length (ws_by_lit w') = 2 * n /\
    forall x, wfun (ws_by_lit w') x = flat_map (wof x) es.
Proof.
  intros HL HV Hl He. unfold enable_watch_lists at 1. rewrite He. cbn [Bool.eqb].
  unfold watches_clear, dassert. cbn [p_set_watches p_watches ws_enabled ws_by_lit negb]. rewrite andb_false_r. cbn [bind].
  set (bl := map (fun _ => []) (ws_by_lit (p_watches p))).
  assert (Hb : forall x, wfun bl x = []).
  { intro x. apply nth_nils. }
  assert (Hbl : length bl = 2 * n) by (unfold bl; rewrite map_length; auto).
  set (p1 := p_set_watches p (mkWatches bl false)).
  destruct (rebuild_loop_ok n (p_long p) (length es) (S (length (a_buffer (p_long p)))) [] es None (mkWatches bl true))
    as (w' & E & A & B & C); auto.
  - pose proof (LR_bound _ _ HL). lia.
  - simpl. auto.
  - exists p1, w'. split; [reflexivity|]. split; [reflexivity|]. split; [exact Hb|]. split.
    + unfold enable_watch_lists. cbn [p1 p_set_watches p_watches ws_enabled ws_by_lit Bool.eqb].
      unfold rebuild_watch_lists.
      match goal with |- context[rebuild_loop ?f ?a ?i ?w] => change (rebuild_loop f a i w) with
        (rebuild_loop (S (length (a_buffer (p_long p)))) (p_long p) None (mkWatches bl true)) end.
      rewrite E. reflexivity.
    + split; auto. split; auto. intro x. rewrite C. cbn [ws_by_lit]. rewrite Hb. reflexivity.
Qed.
