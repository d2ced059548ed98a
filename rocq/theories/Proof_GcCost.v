(** The work of garbage collection. *)
From Coq Require Import NArith List Bool Arith Lia ZifyN ZifyNat ZifyBool.
From Verif Require Import Model_Base Model_Lit Model_PartialAssignment Model_Header Model_Arena Model_MutScan Model_Prop
  Model_Heap Model_Vsids Model_Analysis Model_Luby Model_Solver Model_Cost Model_GcCost Spec Drivers_Arena Proof_Base Proof_PA Proof_Lit Proof_Arena Proof_ArenaHist
  Proof_Long Proof_Trail Proof_PropOps Proof_Backtrack Proof_Inv Proof_Propagate Proof_Gc Proof_Analysis Proof_Learn Proof_DB Proof_Reduce Proof_Solver Proof_Search Proof_Solve Proof_Add
  Drivers_Solver Drivers_Search Proof_Main Proof_Select Proof_Visited Proof_Cost Proof_Garbage Proof_Tables Prop_Width Proof_Size.
Import ListNotations.

(** ** The counter does not change results *)
Lemma er_map {A B} (f : A -> res (B * nat)) g l : (forall a, erase (f a) = g a) -> erase (mapC f l) = mapM g l.
Proof. intro H. induction l as [|a r IH]; [reflexivity|]. cbn [mapC mapM]. apply er_bind; auto. intro b. apply er_bind; auto. Qed.
Lemma er_scan {T S} (f : S -> T -> res ((S * ms_action T) * nat)) g v : (forall s x, erase (f s x) = g s x) -> forall s, erase (scanC f v s) = scan_list g v s.
Proof.
  intro H. induction v as [|x r IH]; intro s; [reflexivity|]. cbn [scanC scan_list]. apply er_bind; auto. intros [s' [y| |y]]; auto.
  apply er_bind; auto. intros [s2 r2]. reflexivity.
Qed.
Lemma er_find H fuel : forall buf pos, erase (find_clause_loop_n H fuel buf pos) = find_clause_loop H fuel buf pos.
Proof.
  induction fuel as [|f IH]; intros buf pos; [reflexivity|]. cbn [find_clause_loop_n find_clause_loop]. destruct (nth_error buf pos) as [w|]; [|reflexivity].
  destruct (has_marker w).
  - destruct (w =? LEN_MARKER)%N; [|reflexivity]. apply er_bind; [apply er_units|]. auto.
  - unfold units, bindC. cbn [bind]. rewrite <- IH. destruct (find_clause_loop_n H f buf (pos + 1)) as [[a k]| |]; reflexivity.
Qed.
Lemma er_next H a c : erase (next_clause_n H a c) = next_clause H a c.
Proof. unfold next_clause_n, next_clause. apply er_bind; [apply er_units|]. intro s. apply er_find. Qed.
Lemma er_gc_loop H fuel : forall a r w x g, erase (gc_loop_n H fuel a r w x g) = gc_loop H fuel a r w x g.
Proof.
  induction fuel as [|f IH]; intros a r w x g; [reflexivity|]. cbn [gc_loop_n gc_loop]. destruct r as [c|]; [|reflexivity].
  apply er_bind; [apply er_next|]. intro r'. apply er_bind; [apply er_units|]. intro len. apply er_bind; [apply er_units|]. intro ws. apply IH.
Qed.
Lemma er_arena H a : erase (collect_garbage_n H a) = collect_garbage H a.
Proof.
  unfold collect_garbage_n, collect_garbage. apply er_bind; [apply er_next|]. intro r. apply er_bind; [apply er_gc_loop|]. intros [[[a1 w] x] g]. reflexivity.
Qed.
Lemma er_trail t g : erase (trail_update_refs_n t g) = trail_update_refs t g.
Proof. unfold trail_update_refs_n, trail_update_refs. apply er_bind; [apply er_map; intro; apply er_units|]. reflexivity. Qed.
Lemma er_watches dbg w g : erase (watches_update_refs_n dbg w g) = watches_update_refs dbg w g.
Proof.
  unfold watches_update_refs_n, watches_update_refs, dassert. destruct (dbg && negb (ws_enabled w)); [reflexivity|]. apply er_bind; [|reflexivity].
  apply er_map. intro wl. transitivity (erase (let+ (_, wl') := scanC (fun (u : unit) x => units 1 (
            let* c := gc_update g (w_clause x) in
            match c with
            | Some c => Ret (u, MSKeep (mkWatch c (w_blocking x)))
            | None => Ret (u, MSRemove)
            end)) wl tt in Ret (wl', 0))).
  { unfold units at 1, bindC at 1. cbn [bind]. match goal with |- erase (bind ?y _) = erase ?z => change z with y; destruct y as [[b k]| |]; reflexivity end. }
  apply er_bind; [apply er_scan; intros; apply er_units|]. intros [u wl']. reflexivity.
Qed.
Lemma er_now dbg p : erase (collect_garbage_now_n dbg p) = collect_garbage_now dbg p.
Proof.
  unfold collect_garbage_now_n, collect_garbage_now. destruct (_ <=? _)%N; [|reflexivity]. apply er_bind; [apply er_arena|]. intros [a g].
  apply er_bind; [apply er_trail|]. intro t. apply er_bind; [apply er_watches|]. reflexivity.
Qed.
Lemma er_collect dbg p : erase (prop_collect_garbage_n dbg p) = prop_collect_garbage dbg p.
Proof. unfold prop_collect_garbage_n, prop_collect_garbage. destruct (should_collect_garbage _); [apply er_now|reflexivity]. Qed.
Lemma er_step dbg cx se : erase (search_step_gc dbg cx se) = search_step dbg cx se.
Proof.
  unfold search_step_gc, search_step. destruct (p_unsat _); [reflexivity|]. apply er_bind; [apply er_collect|]. intro p0. apply er_units.
Qed.
Lemma er_schedule select dbg cx st : erase (schedule_search_step_gc select dbg cx st) = schedule_search_step select dbg cx st.
Proof.
  unfold schedule_search_step_gc, schedule_search_step. destruct (should_restart _ _) as [dr sc1]. apply er_bind; [apply er_units|]. intros [cx1 se1].
  destruct (should_reduce _ _) as [dd sc2]. apply er_bind; [apply er_units|]. intros [cx2 se2]. apply er_bind; [apply er_step|]. intros [[r cx3] se3]. reflexivity.
Qed.

(** ** The clause memory *)
Lemma find_cost H fuel : forall buf pos o k, H <= pos -> find_clause_loop_n H fuel buf pos = Ret (o, k) ->
  match o with Some c => k + pos <= c + H + 1 /\ pos <= c + H < length buf | None => k <= length buf - pos end.
Proof.
  induction fuel as [|f IH]; intros buf pos o k Hp E; [discriminate|]. cbn [find_clause_loop_n] in E. destruct (nth_error buf pos) as [w|] eqn:Ew.
  2:{ inversion E; subst. lia. }
  assert (pos < length buf) by (apply nth_error_Some; congruence). destruct (has_marker w).
  - destruct (w =? LEN_MARKER)%N; [|inversion E; subst; lia]. apply bindC_ret in E as (n & k1 & k2 & E1 & E2 & ->). apply units_ret in E1 as [_ ->].
    apply IH in E2; [|lia]. destruct o; lia.
  - apply bindC_ret in E as (n & k1 & k2 & E1 & E2 & ->). apply units_ret in E1 as [_ ->]. apply IH in E2; [|lia]. destruct o; lia.
Qed.
Lemma next_cost H a c o k : next_clause_n H a c = Ret (o, k) ->
  let start := match c with None => Ret 0 | Some c => let* len := clause_len H a c in Ret (c + len + H + 1) end in
  exists s, start = Ret s /\ match o with Some d => k + s <= d + 1 /\ s <= d < length (a_buffer a) | None => k <= length (a_buffer a) - s end.
Proof.
  unfold next_clause_n. intro E. apply bindC_ret in E as (s & k1 & k2 & E1 & E2 & ->). apply units_ret in E1 as [E1 ->]. exists s. split; [exact E1|].
  unfold find_clause_n in E2. apply find_cost in E2; [|lia]. destruct o; lia.
Qed.
Lemma gc_loop_cost H fuel : forall a r w x g z k, gc_loop_n H fuel a r w x g = Ret (z, k) -> 1 <= H ->
  k <= match r with Some c => 2 * (length (a_buffer a) - c) | None => 0 end.
Proof.
  induction fuel as [|f IH]; intros a r w x g z k E HH; [discriminate|]. cbn [gc_loop_n] in E. destruct r as [c|]; [|inversion E; lia].
  apply bindC_ret in E as (r' & k1 & k2 & E1 & E & ->). apply bindC_ret in E as (len & k3 & k4 & E2 & E & ->). apply units_ret in E2 as [E2 ->].
  apply bindC_ret in E as (ws & k5 & k6 & E3 & E & ->). apply units_ret in E3 as [E3 ->].
  assert (B : c + (len + H + 1) <= length (a_buffer a)).
  { unfold read_words in E3. destruct (Nat.leb_spec (c + (len + H + 1)) (length (a_buffer a))); [auto|discriminate]. }
  apply IH in E; auto. cbn [a_buffer] in E. rewrite write_words_length in E. apply next_cost in E1 as (s & E1 & C). cbv zeta in E1. rewrite E2 in E1. cbn [bind] in E1. injection E1 as <-.
  destruct r' as [d|]; lia.
Qed.
Lemma arena_cost H a z k : collect_garbage_n H a = Ret (z, k) -> 1 <= H -> k <= 2 * length (a_buffer a) + 1.
Proof.
  unfold collect_garbage_n. intros E HH. apply bindC_ret in E as (r & k1 & k2 & E1 & E & ->). apply bindC_ret in E as ([[[a1 w] x] g] & k3 & k4 & E2 & E & ->). inversion E; subst.
  apply gc_loop_cost in E2; auto. apply next_cost in E1 as (s & E1 & C). injection E1 as <-. destruct r as [d|]; lia.
Qed.

(** ** The trail and the watch lists *)
Lemma map_cost {A B} (f : A -> res B) l : forall bs k, mapC (fun a => units 1 (f a)) l = Ret (bs, k) -> k = length l.
Proof.
  induction l as [|a r IH]; intros bs k E; cbn [mapC] in E; [inversion E; reflexivity|]. apply bindC_ret in E as (b & k1 & k2 & E1 & E & ->). apply units_ret in E1 as [_ ->].
  apply bindC_ret in E as (bs' & k3 & k4 & E1 & E & ->). inversion E; subst. apply IH in E1. cbn [length]. lia.
Qed.
Lemma scan_cost {T} (f : unit -> T -> res (unit * ms_action T)) v : (forall u x u' y, f u x <> Ret (u', MSKeepStop y)) ->
  forall u z k, scanC (fun u x => units 1 (f u x)) v u = Ret (z, k) -> k = length v.
Proof.
  intro Hn. induction v as [|x r IH]; intros u z k E; cbn [scanC] in E; [inversion E; reflexivity|]. apply bindC_ret in E as ([s act] & k1 & k2 & E1 & E & ->).
  apply units_ret in E1 as [E1 ->]. destruct act as [y| |y].
  - apply bindC_ret in E as ([s2 r2] & k3 & k4 & E2 & E & ->). inversion E; subst. apply IH in E2. cbn [length]. lia.
  - apply IH in E. cbn [length]. lia.
  - exfalso. exact (Hn _ _ _ _ E1).
Qed.
Lemma lists_cost gaps ls : forall bs k, mapC (fun wl =>
        let+ _ := units 1 (Ret tt) in
        let+ (_, wl') := scanC (fun (u : unit) x => units 1 (
            let* c := gc_update gaps (w_clause x) in
            match c with
            | Some c => Ret (u, MSKeep (mkWatch c (w_blocking x)))
            | None => Ret (u, MSRemove)
            end)) wl tt in
        Ret (wl', 0)) ls = Ret (bs, k) -> k = length ls + length (concat ls).
Proof.
  induction ls as [|wl r IH]; intros bs k E; cbn [mapC] in E; [inversion E; reflexivity|]. apply bindC_ret in E as (b & k1 & k2 & E1 & E & ->).
  apply bindC_ret in E as (bs' & k3 & k4 & E2 & E & ->). inversion E; subst. apply IH in E2.
  apply bindC_ret in E1 as (u & k5 & k6 & E1 & E3 & ->). apply units_ret in E1 as [_ ->]. apply bindC_ret in E3 as ([u' wl'] & k7 & k8 & E3 & E4 & ->). inversion E4; subst.
  apply scan_cost in E3; [|intros u0 x u1 y G; destruct (gc_update _ _) as [[c|]| |]; cbn [bind] in G; discriminate].
  cbn [length concat]. rewrite app_length. lia.
Qed.
Lemma now_cost dbg p p' k : collect_garbage_now_n dbg p = Ret (p', k) ->
  let lower := length (t_steps (p_trail p)) + length (ws_by_lit (p_watches p)) + length (concat (ws_by_lit (p_watches p))) in
  lower <= k <= 2 * awords (p_long p) + lower + 1.
Proof.
  unfold collect_garbage_now_n. intro E. destruct (_ <=? _)%N; [|discriminate]. apply bindC_ret in E as ([a g] & k1 & k2 & E1 & E & ->). apply arena_cost in E1; [|unfold LONG_HEADER_LEN; lia].
  apply bindC_ret in E as (t & k3 & k4 & E2 & E & ->). apply bindC_ret in E as (w & k5 & k6 & E3 & E & ->). inversion E; subst.
  unfold trail_update_refs_n in E2. apply bindC_ret in E2 as (ss & k7 & k8 & E2 & E4 & ->). inversion E4; subst. apply map_cost in E2.
  unfold watches_update_refs_n, dassert in E3. destruct (dbg && negb (ws_enabled (p_watches p))); [discriminate|]. apply bindC_ret in E3 as (bl & k9 & k10 & E3 & E5 & ->). inversion E5; subst. apply lists_cost in E3.
  cbv zeta. unfold awords. lia.
Qed.

(** ** Used words and garbage *)
Lemma used_total n es p : PI n es p -> awords (p_long p) = used_words 2 (map le_words es) + a_garbage (p_long p).
Proof.
  intro HP. pose proof (AR_used 2 _ _ (pi_lr _ _ _ _ HP)) as U. unfold utilization in U. destruct (Nat.leb_spec (a_garbage (p_long p)) (length (a_buffer (p_long p)))); [|discriminate].
  injection U as U. unfold awords. lia.
Qed.
Lemma used_lits es es' : Forall2 (fun e e' => le_lits e' = le_lits e) es es' -> used_words 2 (map le_words es') = used_words 2 (map le_words es).
Proof.
  unfold used_words. induction 1 as [|e e' es es' H _ IH]; [reflexivity|]. cbn [map filter].
  change (e_live (le_words e')) with (le_live e'). change (e_live (le_words e)) with (le_live e). replace (le_live e') with (le_live e) by (unfold le_live; rewrite H; auto).
  destruct (le_live e); [|exact IH]. cbn [fold_right]. rewrite IH. change (e_lits (le_words e')) with (le_lits e'). rewrite H. reflexivity.
Qed.
Lemma used_live es : used_words 2 (map le_words (filter le_live es)) = used_words 2 (map le_words es).
Proof.
  unfold used_words. rewrite !filter_words. f_equal. f_equal. induction es as [|e es IH]; [reflexivity|]. cbn [filter]. destruct (le_live e) eqn:E; [|exact IH]. cbn [filter]. rewrite E, IH. reflexivity.
Qed.
Lemma now_words n es dbg p p' : PI n es p -> collect_garbage_now dbg p = Ret p' ->
  awords (p_long p) = awords (p_long p') + a_garbage (p_long p) /\ a_garbage (p_long p') = 0.
Proof.
  intros HP E. assert (Hg : a_garbage (p_long p') = 0).
  { unfold collect_garbage_now in E. destruct (_ <=? _)%N; [|discriminate]. destruct (long_collect _) as [[a g]| |] eqn:Ec; cbn [bind] in E; try discriminate.
    destruct (trail_update_refs _ _); cbn [bind] in E; try discriminate. destruct (watches_update_refs _ _ _); cbn [bind] in E; try discriminate.
    unfold long_collect, collect_garbage in Ec. destruct (next_clause _ _ _); cbn [bind] in Ec; try discriminate.
    destruct (gc_loop _ _ _ _ _ _ _) as [[[[ag w2] x2] g2]| |]; cbn [bind] in Ec; try discriminate. inversion Ec; subst. inversion E; subst. reflexivity. }
  split; [|exact Hg]. destruct (collect_ok n es dbg p HP) as [[E1 _]|(gaps & a' & es' & w' & E1 & HP' & G)]; [congruence|].
  rewrite E in E1. injection E1 as E1. rewrite <- E1 in HP'. rewrite (used_total _ _ _ HP), (used_total _ _ _ HP'), Hg.
  rewrite <- (used_live es). rewrite (used_lits (filter le_live es) es'); [lia|]. eapply Forall2_imp; [|exact G]. intros x y (_ & _ & A). exact A.
Qed.

(** 1 if there is garbage *)
Definition dirty (p : prop) : nat := if Nat.eqb (a_garbage (p_long p)) 0 then 0 else 1.
(** 1 if there are no long clauses *)
Definition bare (p : prop) : nat := if Nat.eqb (awords (p_long p)) 0 then 1 else 0.

Lemma collect_acct select dbg F cx se p' k : anysel select -> visited select dbg F cx se -> J cx (se_prop se) -> prop_collect_garbage_n dbg (se_prop se) = Ret (p', k) ->
  let m := cnf_vars F + unit_clauses F in
  exists c, k + 6 * awords (p_long p') <= 6 * awords (p_long (se_prop se)) + c * (3 * m + 1) /\ c + dirty p' <= dirty (se_prop se) + bare (se_prop se).
Proof.
  intros Hs HV [HJ _] E m. pose proof (proj1 (trail_length _ _ _ _ _ Hs HV)) as B. fold m in B.
  destruct (visited_SI _ _ _ _ _ Hs HV) as (K & L & st & es & _ & HI). pose proof (s_pi _ _ _ _ _ _ _ _ HI) as HP.
  unfold prop_collect_garbage_n, should_collect_garbage in E. destruct (Nat.leb_spec (length (a_buffer (p_long (se_prop se)))) (a_garbage (p_long (se_prop se)) * 2)) as [G|G].
  2:{ inversion E; subst. exists 0. lia. }
  pose proof (now_cost _ _ _ _ E) as [_ C]. cbv zeta in C. pose proof (pi_wl _ _ _ _ HP) as Hw.
  assert (E' : collect_garbage_now dbg (se_prop se) = Ret p') by (rewrite <- er_now, E; reflexivity).
  destruct (now_words _ _ _ _ _ HP E') as [A1 A2]. exists 1. unfold dirty, bare. rewrite A2. cbn [Nat.eqb]. unfold tw, tot in HJ. unfold awords in *. split.
  - assert (cnf_vars F <= m) by (unfold m; lia). lia.
  - destruct (Nat.eqb_spec (a_garbage (p_long (se_prop se))) 0), (Nat.eqb_spec (length (a_buffer (p_long (se_prop se)))) 0); lia.
Qed.

(** ** Search steps *)
Lemma analyze_words select dbg F cx se cx1 p1 c cx3 an p2 cb : anysel select -> visited select dbg F cx se -> propagate dbg cx (se_prop se) = Ret (cx1, p1, Some c) ->
  1 <= decision_level (p_trail p1) -> analyze_conflict dbg (bump_conflicts cx1) (se_analysis se) p1 c (mkCb (se_vsids se) (se_phases se)) = Ret (cx3, an, p2, cb) ->
  awords (p_long p2) <= awords (p_long p1) + (3 + (cnf_vars F + unit_clauses F)) /\
  st_conflicts (cx_stats cx3) = S (st_conflicts (cx_stats cx1)) /\ st_reductions (cx_stats cx3) = st_reductions (cx_stats cx1).
Proof.
  intros Hs HV E1 Hd E. pose proof (vis_propagate _ _ _ _ _ _ _ _ HV E1) as HV'. pose proof (proj1 (trail_length _ _ _ _ _ Hs HV')) as B. cbn [with_prop se_prop] in B.
  destruct (visited_SI _ _ _ _ _ Hs HV) as (K & L & st & es & _ & HI).
  destruct (SI_propagate dbg _ _ _ _ _ _ _ _ HI) as (cx0 & p0 & es1 & r1 & E0 & H1 & X & Q & R). rewrite E1 in E0. inversion E0; subst cx0 p0 r1. destruct R as [Hc _].
  pose proof (s_pi _ _ _ _ _ _ _ _ H1) as HP. cbn [se_prop] in HP.
  destruct (analyze_ok (cnf_vars F) es1 p1 dbg (bump_conflicts cx1) (se_analysis se) c (mkCb (se_vsids se) (se_phases se))) as (cl & _ & [[A _]|A]); auto; try lia; try apply HI; [congruence|].
  destruct A as (cx4 & an4 & p4 & cb4 & es2 & es3 & h & a & rest & rr & level & target & A & Z). rewrite E in A. inversion A; subst cx4 an4 p4 cb4. clear A.
  destruct (analyze_garbage _ _ _ _ _ _ _ _ _ _ E) as [G _].
  assert (LN : length (a :: rest) <= cnf_vars F + unit_clauses F).
  { transitivity (length (slits (t_steps (p_trail p1)))); [|rewrite map_length; exact B].
    rewrite <- (map_length neg (a :: rest)). apply NoDup_incl_length.
    - apply FinFun.Injective_map_NoDup; [|apply (az_nd _ _ _ _ _ _ _ _ _ _ _ _ _ _ _ _ _ _ Z)]. intros x y Exy. rewrite <- (neg_neg x), <- (neg_neg y). congruence.
    - intros x Hx. apply in_map_iff in Hx as (y & <- & [<-|Hy]); [apply (az_a _ _ _ _ _ _ _ _ _ _ _ _ _ _ _ _ _ _ Z)|].
      pose proof (az_f _ _ _ _ _ _ _ _ _ _ _ _ _ _ _ _ _ _ Z y Hy) as Hf. rewrite <- (firstn_skipn target (t_steps (p_trail p1))), map_app. apply in_or_app. auto. }
  assert (U : used_words 2 (map le_words es3) <= used_words 2 (map le_words es2) + (3 + length (a :: rest))).
  { pose proof (az_db _ _ _ _ _ _ _ _ _ _ _ _ _ _ _ _ _ _ Z) as D. unfold db_add in D. destruct rest as [|b [|d r]]; try (destruct D as [-> _]; lia).
    destruct D as (_ & c' & -> & _). unfold used_words. rewrite map_app, filter_app, fold_right_app. cbn [map filter]. change (e_live (le_words (c', h, a :: b :: d :: r))) with true. cbv iota. cbn [fold_right].
    change (e_lits (le_words (c', h, a :: b :: d :: r))) with (a :: b :: d :: r). generalize (length (a :: b :: d :: r)) as q. intro q.
    induction (filter e_live (map le_words es2)) as [|e l IHl]; cbn [fold_right]; lia. }
  assert (U2 : used_words 2 (map le_words es2) = used_words 2 (map le_words es1)).
  { apply used_lits. eapply Forall2_imp; [|exact (az_es _ _ _ _ _ _ _ _ _ _ _ _ _ _ _ _ _ _ Z)]. intros x y (_ & Y & _). exact Y. }
  rewrite (used_total _ _ _ HP), (used_total _ _ _ (az_pi _ _ _ _ _ _ _ _ _ _ _ _ _ _ _ _ _ _ Z)), G. split; [lia|].
  pose proof (az_cx _ _ _ _ _ _ _ _ _ _ _ _ _ _ _ _ _ _ Z) as ->. cbn [cx_stats]. unfold st_add. destruct rest as [|b [|d r]]; cbn; try (split; lia). destruct (lh_redundant h); cbn; split; lia.
Qed.

Lemma step_acct select dbg F cx se r cx' se' k : anysel select -> visited select dbg F cx se -> J cx (se_prop se) ->
  search_step_gc dbg cx se = Ret ((r, cx', se'), k) ->
  let m := cnf_vars F + unit_clauses F in
  exists c, k + 6 * awords (p_long (se_prop se')) + 6 * (st_conflicts (cx_stats cx) * (m + 3)) <=
    6 * awords (p_long (se_prop se)) + 6 * (st_conflicts (cx_stats cx') * (m + 3)) + c * (3 * m + 1) /\
  c + dirty (se_prop se') <= dirty (se_prop se) + bare (se_prop se) /\ st_reductions (cx_stats cx') = st_reductions (cx_stats cx) /\
  st_conflicts (cx_stats cx) <= st_conflicts (cx_stats cx').
Proof.
  intros Hs HV HJ E m. unfold search_step_gc in E. destruct (p_unsat (se_prop se)); [inversion E; subst; exists 0; lia|].
  apply bindC_ret in E as (p0 & k0 & k1 & E0 & E & ->). apply units_ret in E as [E ->].
  destruct (collect_acct _ _ _ _ _ _ _ Hs HV HJ E0) as (c & C1 & C2). fold m in C1. exists c.
  assert (E0' : prop_collect_garbage dbg (se_prop se) = Ret p0) by (rewrite <- er_collect, E0; reflexivity).
  pose proof (vis_collect _ _ _ _ _ _ HV E0') as HV0.
  destruct (propagate dbg cx p0) as [[[cx1 p1] r1]| |] eqn:E1; try discriminate. cbn [bind] in E.
  assert (S1 : awords (p_long p1) = awords (p_long p0)) by (eapply propagate_size; exact E1).
  assert (D1 : dirty p1 = dirty p0) by (unfold dirty; rewrite (propagate_garbage _ _ _ _ _ _ E1); reflexivity).
  assert (X1 : st_conflicts (cx_stats cx1) = st_conflicts (cx_stats cx) /\ st_reductions (cx_stats cx1) = st_reductions (cx_stats cx)).
  { destruct (visited_SI _ _ _ _ _ Hs HV0) as (K & L & st & es & _ & HI). cbn [with_prop se_prop] in HI.
    destruct (propagate_ok _ _ dbg cx _ (s_pi _ _ _ _ _ _ _ _ HI)) as (cx2 & p2 & es1 & r2 & E2 & _ & _ & _ & _ & R). cbn [with_prop se_prop] in E2. rewrite E1 in E2. inversion E2; subst cx2 p2 r2.
    destruct r1 as [c1|]; [destruct R as [_ ->]; auto|destruct R as [_ ->]]. split; reflexivity. }
  destruct X1 as [X1 X2]. destruct r1 as [c1|].
  - destruct (Nat.eqb_spec (decision_level (p_trail p1)) 0) as [Z|Z].
    + inversion E; subst. cbn [se_prop]. change (p_long (p_set_unsat p1 true)) with (p_long p1). change (dirty (p_set_unsat p1 true)) with (dirty p1). rewrite S1, D1.
      cbn [bump_conflicts cx_with cx_stats st_conflicts st_reductions]. rewrite X1, X2. repeat split; try lia.
    + destruct (analyze_conflict _ _ _ _ _ _) as [[[[cx3 an] p2] cb]| |] eqn:E2; try discriminate. cbn [bind] in E. inversion E; subst. cbn [se_prop].
      destruct (analyze_words select dbg F cx (with_prop se p0) _ _ _ _ _ _ _ Hs HV0 E1 ltac:(lia) E2) as (A1 & A2 & A3). fold m in A1.
      destruct (analyze_garbage _ _ _ _ _ _ _ _ _ _ E2) as [G _]. assert (dirty p2 = dirty p1) by (unfold dirty; rewrite G; reflexivity).
      rewrite A2, A3, X1, X2. repeat split; try lia.
  - destruct (pop_decision_var _ _) as [[ov vs]| |] eqn:E2; try discriminate. cbn [bind] in E. destruct ov as [v|].
    2:{ inversion E; subst. cbn [se_prop]. rewrite S1, D1, X1, X2. repeat split; lia. }
    destruct (decide_phase _ _) as [l| |] eqn:E3; try discriminate. cbn [bind] in E. unfold assign_decision, assign in E.
    destruct (assign_raw _ _ _ _) as [[vv t]| |]; cbn [bind] in E; try discriminate. inversion E; subst. cbn [se_prop].
    cbn [bump_decisions cx_with cx_stats st_conflicts st_reductions]. rewrite X1, X2.
    match goal with |- context[dirty ?q] => change (dirty q) with (dirty p1); change (p_long q) with (p_long p1) end. rewrite S1, D1. repeat split; lia.
Qed.
