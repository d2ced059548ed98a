(** Simulation between debug and release builds and between runs with and
    without a proof writer: the states of the two runs agree except for trail
    indices, which debug builds reset when a variable is unassigned, and the proof
    writer. *)
From Coq Require Import NArith List Bool Arith Lia.
From Verif Require Import Model_Base Model_Lit Model_PartialAssignment Model_Header Model_Arena Model_MutScan
  Model_Prop Model_Heap Model_Vsids Model_Analysis Model_Luby Model_Solver.
Import ListNotations.

Definition bad (e : panic) : Prop := e <> PFull.
Definition rel {A B} (R : A -> B -> Prop) (x : res A) (y : res B) : Prop :=
  match x with
  | Ret a => exists b, y = Ret b /\ R a b
  | OutOfFuel => y = OutOfFuel
  | Panic e => bad e \/ y = Panic e
  end.

Lemma rel_ret {A B} (R : A -> B -> Prop) a b : R a b -> rel R (Ret a) (Ret b).
Proof. intro. exists b. auto. Qed.
Lemma rel_same {A} (x : res A) : rel eq x x.
Proof. destruct x; cbn; eauto. Qed.
Lemma rel_panic {A B} (R : A -> B -> Prop) e : rel R (Panic e) (Panic e).
Proof. cbn. auto. Qed.
Lemma rel_bad {A B} (R : A -> B -> Prop) e y : e <> PFull -> rel R (Panic e : res A) (y : res B).
Proof. cbn. auto. Qed.
Lemma rel_bind {A B A' B'} (R : A -> A' -> Prop) (Q : B -> B' -> Prop) x y f g :
  rel R x y -> (forall a b, R a b -> rel Q (f a) (g b)) -> rel Q (bind x f) (bind y g).
Proof.
  intros H G. destruct x as [a|e|]; cbn in H.
  - destruct H as (b & -> & H). cbn. auto.
  - destruct H as [H | ->]; cbn; auto.
  - subst. reflexivity.
Qed.
Lemma rel_bind_same {A B B'} (Q : B -> B' -> Prop) (x : res A) f g :
  (forall a, x = Ret a -> rel Q (f a) (g a)) -> rel Q (bind x f) (bind x g).
Proof. intros G. destruct x; cbn; auto. Qed.
Lemma rel_weaken {A B} (R Q : A -> B -> Prop) x y : (forall a b, R a b -> Q a b) -> rel R x y -> rel Q x y.
Proof. destruct x; cbn; intros G H; auto. destruct H as (b & -> & H). eauto. Qed.

Lemma rel_dassert {A B} (R : A -> B -> Prop) d d' b x y : (d' = true -> d = true) -> rel R x y -> rel R (dassert d b x) (dassert d' b y).
Proof.
  intros Hd H. unfold dassert. destruct d, b; cbn [andb negb].
  - rewrite andb_false_r. exact H.
  - apply rel_bad. discriminate.
  - rewrite andb_false_r. exact H.
  - destruct d'; [discriminate (Hd eq_refl)|]. exact H.
Qed.

Lemma rel_foldM {A S S'} (R : S -> S' -> Prop) (f : S -> A -> res S) g l :
  (forall s s' a, In a l -> R s s' -> rel R (f s a) (g s' a)) -> forall s s', R s s' -> rel R (foldM f l s) (foldM g l s').
Proof.
  induction l as [|a l IH]; intros H s s' Hs; cbn [foldM]; [apply rel_ret; auto|].
  eapply rel_bind; [apply H; [left; auto|eassumption]|]. intros. apply IH; auto. intros. apply H; auto. right; auto.
Qed.
Lemma rel_mapM {A B} (f g : A -> res B) l : (forall a, rel eq (f a) (g a)) -> rel eq (mapM f l) (mapM g l).
Proof.
  induction l as [|a l IH]; intro H; cbn [mapM]; [apply rel_same|]. eapply rel_bind; [apply H|]. intros x y <-.
  eapply rel_bind; [apply IH; auto|]. intros x' y' <-. apply rel_same.
Qed.
Lemma rel_scan {T S S'} (R : S -> S' -> Prop) (f : S -> T -> res (S * ms_action T)) g l :
  (forall s s' a, R s s' -> rel (fun x y => R (fst x) (fst y) /\ snd x = snd y) (f s a) (g s' a)) ->
  forall s s', R s s' -> rel (fun x y => R (fst x) (fst y) /\ snd x = snd y) (scan_list f l s) (scan_list g l s').
Proof.
  intro H. induction l as [|a l IH]; intros s s' Hs; cbn [scan_list]; [apply rel_ret; auto|].
  eapply rel_bind; [apply H; eassumption|]. intros [s1 act] [s1' act'] [H1 H2]. cbn [fst snd] in *. subst act'. destruct act.
  - eapply rel_bind; [apply IH; eassumption|]. intros [s2 r] [s2' r'] [H3 H4]. cbn [fst snd] in *. subst. apply rel_ret. auto.
  - apply IH; auto.
  - apply rel_ret; auto.
Qed.

(** ** Trail indices *)
Definition ole (x y : option nat) : Prop := match x with Some i => y = Some i | None => True end.
Definition ile := Forall2 ole.
Lemma ole_refl x : ole x x.
Proof. destruct x; cbn; auto. Qed.
Lemma ile_refl l : ile l l.
Proof. induction l; constructor; auto. apply ole_refl. Qed.
Lemma ile_length l k : ile l k -> length k = length l.
Proof. intro H. symmetry. induction H; cbn; congruence. Qed.
Lemma ile_nth l k i : ile l k -> match nth_error l i with Some x => exists y, nth_error k i = Some y /\ ole x y | None => nth_error k i = None end.
Proof. intro H. revert i. induction H; intros [|i]; cbn; eauto; try apply IHForall2. Qed.
Lemma ile_upd l k i x y : ile l k -> ole x y -> ile (upd l i x) (upd k i y).
Proof. intros H Hx. revert i. induction H; intros [|i]; cbn; constructor; auto; try apply IHForall2. Qed.
Lemma ile_upd_none l k i : ile l k -> ile (upd l i None) k.
Proof. intro H. revert i. induction H; intros [|i]; cbn; constructor; auto; try exact I; try apply IHForall2. Qed.
Lemma ile_resize l k n : ile l k -> ile (vresize l n None) (vresize k n None).
Proof.
  intro H. unfold vresize. rewrite (ile_length _ _ H). apply Forall2_app.
  - revert n. induction H; intros [|n]; cbn; constructor; auto; try apply IHForall2.
  - induction (n - length l); cbn; constructor; auto; exact I.
Qed.
Lemma rel_vset l k i x y : ile l k -> ole x y -> rel ile (vset l i x) (vset k i y).
Proof.
  intros H Hx. unfold vset. rewrite (ile_length _ _ H). destruct (i <? length l); [|apply rel_panic].
  apply rel_ret. apply ile_upd; auto.
Qed.

Definition tset (t : trail) (ti : list (option nat)) : trail := mkTrail ti (t_steps t) (t_propagated t) (t_decisions t).
Definition pset (p : prop) (ti : list (option nat)) : prop :=
  mkProp (p_unsat p) (p_values p) (p_binary p) (p_long p) (p_watches p) (tset (p_trail p) ti).
Definition tr (t t' : trail) : Prop := exists ti, t' = tset t ti /\ ile (t_index t) ti.
Definition pr (p p' : prop) : Prop := exists ti, p' = pset p ti /\ ile (t_index (p_trail p)) ti.

Lemma tr_refl t : tr t t.
Proof. exists (t_index t). split; [destruct t; reflexivity|apply ile_refl]. Qed.
Lemma pr_refl p : pr p p.
Proof. exists (t_index (p_trail p)). split; [destruct p as [? ? ? ? ? []]; reflexivity|apply ile_refl]. Qed.
Lemma pr_tr p p' : pr p p' -> tr (p_trail p) (p_trail p').
Proof. intros (ti & -> & H). exists ti. auto. Qed.

Section Sim.
Variables d d' : bool.
Hypothesis Hd : d' = true -> d = true.

Lemma rel_trail_index t t' l : tr t t' -> rel eq (trail_index t l) (trail_index t' l).
Proof.
  intros (ti & -> & H). unfold trail_index, vget. cbn [t_index tset]. pose proof (ile_nth _ _ (vidx l) H) as Q.
  destruct (nth_error (t_index t) (vidx l)) as [[i|]|].
  - destruct Q as (y & -> & Q). cbn in Q. subst y. apply rel_same.
  - apply rel_bad. discriminate.
  - rewrite Q. apply rel_same.
Qed.
Lemma rel_step_for_var t t' l : tr t t' -> rel eq (step_for_var t l) (step_for_var t' l).
Proof.
  intro H. unfold step_for_var. eapply rel_bind; [apply rel_trail_index; eauto|]. intros i j <-. destruct H as (ti & -> & H). apply rel_same.
Qed.
Lemma rel_advance t t' : tr t t' -> rel tr (advance_propagated d t) (advance_propagated d' t').
Proof.
  intros (ti & -> & H). unfold advance_propagated. cbn [tset t_steps t_propagated t_index t_decisions]. apply rel_dassert; auto.
  apply rel_ret. exists ti. split; [reflexivity|exact H].
Qed.
Lemma rel_update_refs t t' g : tr t t' -> rel tr (trail_update_refs t g) (trail_update_refs t' g).
Proof.
  intros (ti & -> & H). unfold trail_update_refs. cbn [tset t_steps t_propagated t_index t_decisions]. apply rel_bind_same. intros ss _.
  apply rel_ret. exists ti. split; [reflexivity|exact H].
Qed.
Lemma rel_assign_raw v t t' s : tr t t' -> rel (fun x y => fst x = fst y /\ tr (snd x) (snd y)) (assign_raw d v t s) (assign_raw d' v t' s).
Proof.
  intros (ti & -> & H). unfold assign_raw. cbn [tset t_steps t_propagated t_index t_decisions].
  eapply rel_bind; [apply (rel_vset _ _ _ _ (Some (length (t_steps t))) H); reflexivity|]. intros k k' Hk. apply rel_bind_same. intros a _. apply rel_dassert; auto.
  apply rel_bind_same. intros v' _. apply rel_ret. cbn [fst snd]. split; auto. exists k'. split; [reflexivity|exact Hk].
Qed.
Lemma pr_vt p p' v t t' : pr p p' -> tr t t' -> pr (p_set_vt p v t) (p_set_vt p' v t').
Proof. intros (ti & -> & H) (k & -> & Hk). exists k. split; [reflexivity|exact Hk]. Qed.
Lemma rel_assign p p' s : pr p p' -> rel pr (assign d p s) (assign d' p' s).
Proof.
  intro H. unfold assign. pose proof (pr_tr _ _ H) as Ht.
  replace (p_values p') with (p_values p) by (destruct H as (? & -> & _); reflexivity).
  eapply rel_bind; [apply rel_assign_raw; eauto|]. intros [v t] [v' t'] [E1 E2]. cbn [fst snd] in *. subst v'. apply rel_ret. apply pr_vt; auto.
Qed.
Lemma rel_assign_decision p p' l : pr p p' -> rel pr (assign_decision d p l) (assign_decision d' p' l).
Proof.
  intros (ti & -> & H). unfold assign_decision. apply (rel_assign (p_set_trail p _) (p_set_trail (pset p ti) _)).
  exists ti. split; [reflexivity|exact H].
Qed.

(** ** Clauses *)
Definition cxe (pm : bool) (cx : ctx) : ctx := mkCtx (cx_stats cx) (if pm then cx_proof cx else None).
Variable pm : bool.
Definition cr (cx cx' : ctx) : Prop := cx' = cxe pm cx.
Lemma cxe_with cx s : cx_with (cxe pm cx) s = cxe pm (cx_with cx s).
Proof. reflexivity. Qed.
Lemma cxe_log cx s : cx_log (cxe pm cx) s = cxe pm (cx_log cx s).
Proof. unfold cx_log, cxe. cbn. destruct pm; reflexivity. Qed.
Lemma cxe_stats cx : cx_stats (cxe pm cx) = cx_stats cx.
Proof. reflexivity. Qed.

Definition acr (x y : added_clause * ctx * prop) : Prop := fst (fst x) = fst (fst y) /\ cr (snd (fst x)) (snd (fst y)) /\ pr (snd x) (snd y).
Lemma rel_add_clause cx p p' h lits : pr p p' -> rel acr (add_clause_verbatim d cx p h lits) (add_clause_verbatim d' (cxe pm cx) p' h lits).
Proof.
  intro H. pose proof H as (ti & -> & Hi). destruct lits as [|a [|b [|c lits]]]; cbn [add_clause_verbatim pset p_values p_binary p_long p_watches cxe cx_stats].
  - apply rel_ret. repeat split. exists ti. split; [reflexivity|exact Hi].
  - apply rel_bind_same. intros [] _.
    + apply rel_ret. repeat split. exists ti. split; [reflexivity|exact Hi].
    + eapply rel_bind; [apply rel_assign, H|]. intros p1 p1' H1. apply rel_ret. repeat split. exact H1.
  - apply rel_bind_same. intros b' _. apply rel_ret. repeat split. exists ti. split; [reflexivity|exact Hi].
  - apply rel_bind_same. intros [[c0|] long'] _; [|apply rel_panic]. apply rel_bind_same. intros w' _. apply rel_ret. repeat split; exists ti; split; [reflexivity|exact Hi].
Qed.

Lemma rel_collect p p' : pr p p' -> rel pr (prop_collect_garbage d p) (prop_collect_garbage d' p').
Proof.
  intro H. pose proof (pr_tr _ _ H) as Ht. pose proof H as (ti & -> & Hi). unfold prop_collect_garbage. cbn [pset p_long].
  destruct (should_collect_garbage (p_long p)); [|apply rel_ret; exact H]. unfold collect_garbage_now. cbn [pset p_long p_watches p_trail].
  destruct (_ <=? _)%N; [|apply rel_panic]. apply rel_bind_same. intros [long' gaps] _.
  eapply rel_bind; [apply rel_update_refs, Ht|]. intros t t' (k & -> & Hk).
  eapply rel_bind with (R := eq).
  - unfold watches_update_refs. apply rel_dassert; auto. apply rel_same.
  - intros w w' <-. apply rel_ret. exists k. split; [reflexivity|exact Hk].
Qed.

Lemma rel_enable p p' b : pr p p' -> rel pr (enable_watch_lists d p b) (enable_watch_lists d' p' b).
Proof.
  intro H. pose proof H as (ti & -> & Hi). unfold enable_watch_lists, rebuild_watch_lists. cbn [pset p_watches p_set_watches p_long p_trail p_values p_binary].
  destruct (Bool.eqb _ _); [apply rel_ret; exact H|]. destruct b.
  - apply rel_bind_same. intros w _. apply rel_ret. exists ti. split; [reflexivity|exact Hi].
  - eapply rel_bind with (R := eq); [unfold watches_clear; apply rel_dassert; auto; apply rel_same|].
    intros w w' <-. apply rel_ret. exists ti. split; [reflexivity|exact Hi].
Qed.

(** ** Propagation *)
Definition pcr (x y : prop * option conflict) : Prop := pr (fst x) (fst y) /\ snd x = snd y.
Lemma pr_values p p' : pr p p' -> p_values p' = p_values p.
Proof. intros (ti & -> & _). reflexivity. Qed.
Lemma rel_binary_loop l others : forall p p', pr p p' -> rel pcr (binary_loop d p l others) (binary_loop d' p' l others).
Proof.
  induction others as [|o others IH]; intros p p' H; cbn [binary_loop]; [apply rel_ret; split; auto|].
  rewrite (pr_values _ _ H). apply rel_bind_same. intros [] _; [apply IH; auto|]. apply rel_bind_same. intros [] _.
  - apply rel_ret. split; auto.
  - pose proof (pr_tr _ _ H) as Ht. replace (decision_level (p_trail p')) with (decision_level (p_trail p)) by (destruct Ht as (? & -> & _); reflexivity).
    eapply rel_bind; [apply rel_assign_raw; eauto|]. intros [v t] [v' t'] [E1 E2]. cbn [fst snd] in *. subst v'. apply IH. apply pr_vt; auto.
Qed.
Lemma rel_push_watch w l x : rel eq (push_watch d w l x) (push_watch d' w l x).
Proof. unfold push_watch. apply rel_dassert; auto. apply rel_same. Qed.
Lemma rel_take w l : rel eq (watches_take d w l) (watches_take d' w l).
Proof. unfold watches_take. apply rel_dassert; auto. apply rel_same. Qed.
Lemma rel_restore w l ws : rel eq (watches_restore d w l ws) (watches_restore d' w l ws).
Proof.
  unfold watches_restore. apply rel_dassert; auto. apply rel_bind_same. intros old _. apply rel_dassert; auto. apply rel_same.
Qed.
Lemma rel_select_other a b c : rel eq (select_other d a b c) (select_other d' a b c).
Proof. unfold select_other. apply rel_dassert; auto. apply rel_same. Qed.

Lemma rel_watch_body l st st' w : pcr st st' ->
  rel (fun x y => pcr (fst x) (fst y) /\ snd x = snd y) (watch_body d l st w) (watch_body d' l st' w).
Proof.
  destruct st as [p r], st' as [p' r']. intros [H E]. cbn [fst snd] in *. subst r'. pose proof (pr_tr _ _ H) as Ht. pose proof H as (ti & -> & Hi).
  unfold watch_body. cbn [pset p_values p_long p_watches p_trail].
  apply rel_bind_same. intros [] _; [apply rel_ret; repeat split; exact H|].
  apply rel_bind_same. intros cl _. destruct (_ <? _); [apply rel_ret; repeat split; exact H|].
  apply rel_bind_same. intros h _. apply rel_bind_same. intros l0 _. apply rel_bind_same. intros l1 _.
  eapply rel_bind; [apply rel_select_other|]. intros o o' <-. apply rel_bind_same. intros [] _; [apply rel_ret; repeat split; exact H|].
  apply rel_bind_same. intros [sp found] _. apply rel_bind_same. intros a1 _. destruct found as [[sl []]|].
  - apply rel_ret. repeat split. exists ti. split; [reflexivity|exact Hi].
  - eapply rel_bind; [apply rel_push_watch|]. intros ws ws' <-. apply rel_bind_same. intros a2 _. apply rel_ret. repeat split. exists ti. split; [reflexivity|exact Hi].
  - apply rel_bind_same. intros [] _; [apply rel_ret; repeat split; exists ti; split; [reflexivity|exact Hi]|].
    apply rel_bind_same. intros a2 _. eapply rel_bind; [apply rel_assign_raw, Ht|]. intros [v t] [v' t'] [E1 E2]. cbn [fst snd] in *. subst v'.
    apply rel_ret. repeat split. destruct E2 as (k & -> & Hk). exists k. split; [reflexivity|exact Hk].
Qed.
Lemma pr_set_watches p p' w : pr p p' -> pr (p_set_watches p w) (p_set_watches p' w).
Proof. intros (ti & -> & H). exists ti. split; [reflexivity|exact H]. Qed.
Lemma rel_long_clauses p p' l : pr p p' -> rel pcr (propagate_long_clauses d p l) (propagate_long_clauses d' p' l).
Proof.
  intro H. unfold propagate_long_clauses. replace (p_watches p') with (p_watches p) by (destruct H as (? & -> & _); reflexivity).
  eapply rel_bind; [apply rel_take|]. intros [wl ws] ? <-.
  eapply rel_bind; [apply (rel_scan pcr); [intros; apply rel_watch_body; auto|split; [apply pr_set_watches; exact H|reflexivity]]|].
  intros [[p2 r] wl'] [[p2' r'] wl''] [[H2 E2] E3]. cbn [fst snd] in *. subst r' wl''.
  replace (p_watches p2') with (p_watches p2) by (destruct H2 as (? & -> & _); reflexivity).
  eapply rel_bind; [apply rel_restore|]. intros w ? <-. apply rel_ret. split; [apply pr_set_watches; auto|reflexivity].
Qed.
Lemma rel_propagate_literal p p' l : pr p p' -> rel pcr (propagate_literal d p l) (propagate_literal d' p' l).
Proof.
  intro H. unfold propagate_literal, propagate_binary_clauses. replace (p_binary p') with (p_binary p) by (destruct H as (? & -> & _); reflexivity).
  eapply rel_bind.
  - apply rel_bind_same. intros o _. apply rel_binary_loop, H.
  - intros [p1 r] [p1' r'] [H1 E]. cbn [fst snd] in *. subst r'. destruct r; [apply rel_ret; split; auto|]. apply rel_long_clauses; auto.
Qed.
Lemma rel_propagate_loop fuel : forall p p', pr p p' -> rel pcr (propagate_loop fuel d p) (propagate_loop fuel d' p').
Proof.
  induction fuel as [|f IH]; intros p p' H; cbn [propagate_loop]; [reflexivity|].
  replace (next_unpropagated_lit (p_trail p')) with (next_unpropagated_lit (p_trail p)) by (destruct H as (? & -> & _); reflexivity).
  destruct (next_unpropagated_lit (p_trail p)) as [l|]; [|apply rel_ret; split; auto].
  eapply rel_bind; [apply rel_propagate_literal, H|]. intros [p1 r] [p1' r'] [H1 E]. cbn [fst snd] in *. subst r'.
  destruct r; [apply rel_ret; split; auto|]. eapply rel_bind; [apply rel_advance, pr_tr, H1|]. intros t t' (k & -> & Hk).
  apply IH. destruct H1 as (ti & -> & _). exists k. split; [reflexivity|exact Hk].
Qed.
Definition cpr (x y : ctx * prop * option conflict) : Prop := cr (fst (fst x)) (fst (fst y)) /\ pr (snd (fst x)) (snd (fst y)) /\ snd x = snd y.
Lemma rel_propagate cx p p' : pr p p' -> rel cpr (propagate d cx p) (propagate d' (cxe pm cx) p').
Proof.
  intro H. unfold propagate. eapply rel_bind; [apply rel_enable, H|]. intros p0 p0' H0.
  replace (propagate_fuel p0') with (propagate_fuel p0) by (destruct H0 as (? & -> & _); reflexivity).
  replace (t_propagated (p_trail p0')) with (t_propagated (p_trail p0)) by (destruct H0 as (? & -> & _); reflexivity).
  eapply rel_bind; [apply rel_propagate_loop, H0|]. intros [p1 r] [p1' r'] [H1 E]. cbn [fst snd] in *. subst r'.
  destruct r; [apply rel_ret; repeat split; auto|]. apply rel_ret. destruct H1 as (ti & -> & Hi). repeat split; cbn [fst snd]; exists ti; split; [reflexivity|exact Hi].
Qed.

(** ** Backtracking *)
Definition btr (x y : prop * callbacks) : Prop := pr (fst x) (fst y) /\ snd x = snd y.
Lemma rel_unassign_step st st' s : fst st = fst st' /\ ile (snd st) (snd st') ->
  rel (fun x y => fst x = fst y /\ ile (snd x) (snd y)) (unassign_step d st s) (unassign_step d' st' s).
Proof.
  destruct st as [[cb v] ti], st' as [st' ti']. cbn [fst snd]. intros [<- H]. unfold unassign_step.
  apply rel_bind_same. intros cb' _. apply rel_bind_same. intros v' _. eapply rel_bind with (R := ile).
  - destruct d.
    + destruct d'; [apply rel_vset; auto; exact I|]. unfold vset. destruct (_ <? _); [|apply rel_bad; discriminate].
      apply rel_ret. apply ile_upd_none. exact H.
    + destruct d'; [discriminate (Hd eq_refl)|]. apply rel_ret. exact H.
  - intros k k' Hk. apply rel_ret. auto.
Qed.
Lemma rel_backtrack p p' level cb : pr p p' -> rel btr (backtrack_to_level d p level cb) (backtrack_to_level d' p' level cb).
Proof.
  intro H. pose proof H as (ti & -> & Hi). unfold backtrack_to_level. cbn [pset p_trail tset t_decisions t_steps t_index t_propagated p_values].
  change (decision_level (tset (p_trail p) ti)) with (decision_level (p_trail p)).
  destruct (level <? _); [|apply rel_panic]. apply rel_bind_same. intros target _. destruct (target <=? _); [|apply rel_panic].
  eapply rel_bind.
  - apply (rel_foldM (fun x y => fst x = fst y /\ ile (snd x) (snd y))); [intros; apply rel_unassign_step; auto|]. cbn [fst snd]. split; [reflexivity|exact Hi].
  - intros [[cb' v'] k] [x k'] [E Hk]. cbn [fst snd] in *. subst x. apply rel_ret. split; [exists k'; split; [reflexivity|exact Hk]|reflexivity].
Qed.

(** ** Analysis *)
Ltac same := let i := fresh in intros i ? <-.
Lemma rel_glue t t' lits tmp : tr t t' -> rel eq (compute_glue t lits tmp) (compute_glue t' lits tmp).
Proof.
  intro H. unfold compute_glue. eapply rel_bind.
  - apply (rel_foldM eq); [|reflexivity]. intros [g tm] ? l _ <-. unfold glue_count. eapply rel_bind; [apply rel_step_for_var, H|]. same. apply rel_same.
  - intros [g t1] ? <-. eapply rel_bind.
    + apply (rel_foldM eq); [|reflexivity]. intros tm ? l _ <-. unfold glue_reset. eapply rel_bind; [apply rel_step_for_var, H|]. same. apply rel_same.
    + same. apply rel_same.
Qed.
Lemma rel_cached m i t t' : tr t t' -> rel eq (redundant_cached m i t) (redundant_cached m i t').
Proof. intros (ti & -> & _). apply rel_same. Qed.
Lemma rel_lookahead m t t' lits : tr t t' -> forall b, rel eq (lookahead m t lits b) (lookahead m t' lits b).
Proof.
  intro H. induction lits as [|l lits IH]; intro b; cbn [lookahead]; [apply rel_same|].
  eapply rel_bind; [apply rel_trail_index, H|]. same. eapply rel_bind; [apply rel_cached, H|]. intros [[]|] ? <-; auto. apply rel_same.
Qed.
Lemma rel_iter fuel p p' : pr p p' -> forall m top stack, rel eq (redundant_iter fuel m p top stack) (redundant_iter fuel m p' top stack).
Proof.
  intro H. pose proof (pr_tr _ _ H) as Ht. induction fuel as [|f IH]; intros m [ti tl] stack; cbn [redundant_iter]; [reflexivity|].
  replace (p_long p') with (p_long p) by (destruct H as (? & -> & _); reflexivity).
  replace (t_steps (p_trail p')) with (t_steps (p_trail p)) by (destruct H as (? & -> & _); reflexivity).
  destruct tl as [|l rest].
  - apply rel_bind_same. intros m1 _. destruct (rev stack); [apply rel_same|apply IH].
  - eapply rel_bind; [apply rel_trail_index, Ht|]. same. eapply rel_bind; [apply rel_cached, Ht|]. intros [[]|] ? <-; [apply IH|apply rel_same|].
    apply rel_bind_same. intros s _. apply rel_bind_same. intros rl _. eapply rel_bind; [apply rel_lookahead, Ht|]. intros [[]|] ? <-; [|apply IH|apply rel_same].
    apply rel_bind_same. intros m1 _. apply IH.
Qed.
Lemma rel_rec fuel p p' : pr p p' -> forall m i depth, rel eq (redundant_rec fuel m i p depth) (redundant_rec fuel m i p' depth).
Proof.
  intro H. pose proof (pr_tr _ _ H) as Ht. induction fuel as [|f IH]; intros m i depth; [reflexivity|].
  cbn [redundant_rec].
  replace (p_long p') with (p_long p) by (destruct H as (? & -> & _); reflexivity).
  replace (t_steps (p_trail p')) with (t_steps (p_trail p)) by (destruct H as (? & -> & _); reflexivity).
  apply rel_bind_same. intros s _. apply rel_bind_same. intros rl _. eapply rel_bind; [apply rel_lookahead, Ht|]. intros [[]|] ? <-; [apply rel_same| |apply rel_same].
  destruct (MAX_DEPTH <? depth).
  - replace (iter_fuel p' rl) with (iter_fuel p rl) by (destruct H as (? & -> & _); reflexivity). apply rel_iter, H.
  - revert m. induction rl as [|l rl IHl]; intro m; [apply rel_same|].
    eapply rel_bind; [apply rel_trail_index, Ht|]. same. eapply rel_bind; [apply rel_cached, Ht|]. intros c ? <-.
    eapply rel_bind with (R := eq); [destruct c; [apply rel_same|apply IH]|]. intros [b m1] ? <-. destruct b; [apply IHl|apply rel_same].
Qed.
Lemma rel_minimize m clause p p' : pr p p' -> rel eq (minimize m clause p) (minimize m clause p').
Proof.
  intro H. pose proof (pr_tr _ _ H) as Ht. unfold minimize.
  replace (decision_level (p_trail p')) with (decision_level (p_trail p)) by (destruct H as (? & -> & _); reflexivity).
  replace (t_steps (p_trail p')) with (t_steps (p_trail p)) by (destruct H as (? & -> & _); reflexivity).
  apply rel_bind_same. intros f2 _. eapply rel_bind.
  - unfold sort_by_trail. eapply rel_bind; [apply rel_mapM; intro l; eapply rel_bind; [apply rel_trail_index, Ht|]; same; apply rel_same|]. same. apply rel_same.
  - intros sorted ? <-. destruct (rev sorted) as [|pl prest]; [apply rel_same|]. eapply rel_bind.
    + apply (rel_foldM eq); [|reflexivity]. intros [m1 kept] ? l _ <-. unfold retain_body.
      replace (t_steps (p_trail p')) with (t_steps (p_trail p)) by (destruct H as (? & -> & _); reflexivity).
      eapply rel_bind; [apply rel_trail_index, Ht|]. same. apply rel_bind_same. intros s _. apply rel_bind_same. intros fi _.
      eapply rel_bind with (R := eq); [|intros [rt m2] ? <-; apply rel_same].
      destruct (first_gt fi _); [apply rel_same|]. eapply rel_bind; [apply rel_rec, H|]. intros [] ? <-. apply rel_same.
    + intros [m1 kept] ? <-. apply rel_bind_same. intros c2 _. eapply rel_bind.
      * apply (rel_foldM eq); [|reflexivity]. intros fl ? l _ <-. eapply rel_bind; [apply rel_step_for_var, Ht|]. same. apply rel_same.
      * intros f3 ? <-. apply rel_bind_same. intros l1 _. eapply rel_bind; [apply rel_step_for_var, Ht|]. same. apply rel_same.
Qed.
Lemma rel_bump_long t t' a c tmp : tr t t' -> rel eq (bump_long_clause t a c tmp) (bump_long_clause t' a c tmp).
Proof.
  intro H. unfold bump_long_clause. apply rel_bind_same. intros ls _. apply rel_bind_same. intros h _.
  eapply rel_bind; [apply rel_glue, H|]. intros [g tm] ? <-. apply rel_same.
Qed.
Lemma rel_add_literal t t' st l : tr t t' -> rel eq (add_literal t st l) (add_literal t' st l).
Proof.
  intro H. destruct st as [an cb]. unfold add_literal. eapply rel_bind; [apply rel_trail_index, H|]. same.
  destruct H as (k & -> & _). apply rel_same.
Qed.
Lemma rel_add_literals t t' ls st : tr t t' -> rel eq (foldM (add_literal t) ls st) (foldM (add_literal t') ls st).
Proof. intro H. apply (rel_foldM eq); [|reflexivity]. intros s ? l _ <-. apply rel_add_literal, H. Qed.
Definition par (x y : prop * analysis * callbacks) : Prop := pr (fst (fst x)) (fst (fst y)) /\ snd (fst x) = snd (fst y) /\ snd x = snd y.
Lemma pr_set_long p p' a : pr p p' -> pr (p_set_long p a) (p_set_long p' a).
Proof. intros (ti & -> & H). exists ti. split; [reflexivity|exact H]. Qed.
Lemma rel_uip n : forall p p' an cb, pr p p' -> rel par (uip_loop n p an cb) (uip_loop n p' an cb).
Proof.
  induction n as [|i IH]; intros p p' an cb H; cbn [uip_loop]; [apply rel_ret; repeat split; auto|].
  pose proof (pr_tr _ _ H) as Ht.
  replace (p_long p') with (p_long p) by (destruct H as (? & -> & _); reflexivity).
  replace (t_steps (p_trail p')) with (t_steps (p_trail p)) by (destruct H as (? & -> & _); reflexivity).
  apply rel_bind_same. intros cur _. apply rel_bind_same. intros cs _. destruct (negb cur); [apply IH, H|].
  apply rel_bind_same. intros s _. destruct (0 <? _); [|apply rel_panic]. destruct (_ =? 0).
  - eapply rel_bind.
    + apply (rel_foldM eq); [|reflexivity]. intros c ? l _ <-. eapply rel_bind; [apply rel_trail_index, Ht|]. same. apply rel_same.
    + intros cs' ? <-. apply rel_ret. repeat split; auto.
  - eapply rel_bind with (R := fun x y => pr (fst x) (fst y) /\ snd x = snd y).
    + destruct (s_reason s); try (apply rel_ret; split; auto; fail).
      eapply rel_bind; [apply rel_bump_long, Ht|]. intros [a' g'] ? <-. apply rel_ret. split; auto. apply pr_set_long, H.
    + intros [p1 an3] [p1' an3'] [H1 E]. cbn [fst snd] in *. subst an3'.
      replace (p_long p1') with (p_long p1) by (destruct H1 as (? & -> & _); reflexivity).
      apply rel_bind_same. intros rl _. eapply rel_bind; [apply rel_add_literals, Ht|]. intros [an4 cb'] ? <-. apply IH, H1.
Qed.
Lemma rel_derive an p p' c cb : pr p p' -> rel par (derive_1uip_clause an p c cb) (derive_1uip_clause an p' c cb).
Proof.
  intro H. pose proof (pr_tr _ _ H) as Ht. unfold derive_1uip_clause.
  replace (p_long p') with (p_long p) by (destruct H as (? & -> & _); reflexivity).
  replace (t_steps (p_trail p')) with (t_steps (p_trail p)) by (destruct H as (? & -> & _); reflexivity).
  replace (update_trail_len (an_set_derived an []) (p_trail p')) with (update_trail_len (an_set_derived an []) (p_trail p)) by (destruct H as (? & -> & _); reflexivity).
  eapply rel_bind with (R := fun x y => pr (fst x) (fst y) /\ snd x = snd y).
  - destruct c; [apply rel_ret; split; auto|]. eapply rel_bind; [apply rel_bump_long, Ht|]. intros [a' g'] ? <-. apply rel_ret. split; auto. apply pr_set_long, H.
  - intros [p1 an2] [p1' an2'] [H1 E]. cbn [fst snd] in *. subst an2'.
    replace (p_long p1') with (p_long p1) by (destruct H1 as (? & -> & _); reflexivity).
    apply rel_bind_same. intros ls _. eapply rel_bind; [apply rel_add_literals, Ht|]. intros [an3 cb'] ? <-.
    eapply rel_bind; [apply rel_uip, H1|]. intros [[p2 an4] cb2] [[p2' an4'] cb2'] (H2 & E1 & E2). cbn [fst snd] in *. subst.
    destruct (_ =? 0); [|apply rel_panic]. apply rel_ret. repeat split; auto.
Qed.
Definition lar (x y : ctx * analysis * prop) : Prop := cr (fst (fst x)) (fst (fst y)) /\ snd (fst x) = snd (fst y) /\ pr (snd x) (snd y).
Lemma rel_learn cx an p p' : pr p p' -> rel lar (learn_and_assign d cx an p) (learn_and_assign d' (cxe pm cx) an p').
Proof.
  intro H. pose proof (pr_tr _ _ H) as Ht. unfold learn_and_assign. rewrite (pr_values _ _ H).
  eapply rel_bind with (R := fun _ _ => True).
  - destruct d.
    + destruct d'; [eapply rel_weaken; [|apply rel_same]; auto|].
      assert (G : forall l, rel (fun _ _ => True) (foldM (fun (u : unit) l => let* f := pa_is_false (p_values p) l in if f then Ret u else Panic PDebug) l tt) (Ret tt)).
      { intro ls. induction ls as [|x ls IH]; cbn [foldM]; [apply rel_ret; auto|]. unfold pa_is_false, vget.
        destruct (nth_error (p_values p) (vidx x)) as [b|]; cbn [bind]; [|apply rel_bad; discriminate].
        destruct (b =? _)%N; cbn [bind]; [exact IH|apply rel_bad; discriminate]. }
      apply G.
    + destruct d'; [discriminate (Hd eq_refl)|]. apply rel_ret; auto.
  - intros _ _ _. eapply rel_bind with (R := eq).
    + destruct (2 <? _); [|apply rel_same]. eapply rel_bind; [apply rel_glue, Ht|]. intros [g tm] ? <-. apply rel_same.
    + intros [h an1] ? <-. rewrite cxe_log. eapply rel_bind; [apply rel_add_clause, H|].
      intros [[ad cx2] p1] [[ad' cx2'] p1'] (E1 & E2 & H1). cbn [fst snd] in *. subst ad'. unfold cr in E2. subst cx2'.
      destruct ad; try (apply rel_ret; repeat split; exact H1).
      all: apply rel_bind_same; intros l0 _;
        replace (decision_level (p_trail p1')) with (decision_level (p_trail p1)) by (destruct H1 as (? & -> & _); reflexivity);
        (eapply rel_bind; [apply rel_assign, H1|]); intros p2 p2' H2; apply rel_ret; repeat split; exact H2.
Qed.
Definition anr (x y : ctx * analysis * prop * callbacks) : Prop := lar (fst x) (fst y) /\ snd x = snd y.
Lemma rel_analyze cx an p p' c cb : pr p p' -> rel anr (analyze_conflict d cx an p c cb) (analyze_conflict d' (cxe pm cx) an p' c cb).
Proof.
  intro H. unfold analyze_conflict.
  replace (decision_level (p_trail p')) with (decision_level (p_trail p)) by (destruct H as (? & -> & _); reflexivity).
  destruct (negb _); [|apply rel_panic]. eapply rel_bind; [apply rel_derive, H|].
  intros [[p1 an1] cb1] [[p1' an1'] cb1'] (H1 & E1 & E2). cbn [fst snd] in *. subst an1' cb1'.
  eapply rel_bind with (R := eq).
  - unfold minimize_derived_clause. destruct (1 <? _); [|apply rel_same]. eapply rel_bind; [apply rel_minimize, H1|]. intros [[? ?] ?] ? <-. apply rel_same.
  - intros [level an2] ? <-. eapply rel_bind; [apply rel_backtrack, H1|]. intros [p2 cb3] [p2' cb3'] [H2 E]. cbn [fst snd] in *. subst cb3'.
    eapply rel_bind; [apply rel_learn, H2|]. intros [[cx' an3] p3] [[cx'' an3'] p3'] HL. apply rel_ret. split; [exact HL|reflexivity].
Qed.

(** ** Search *)
Definition sr (s s' : search) : Prop :=
  pr (se_prop s) (se_prop s') /\ se_analysis s' = se_analysis s /\ se_vsids s' = se_vsids s /\ se_phases s' = se_phases s.
Lemma sr_intro p p' an vs ph : pr p p' -> sr (mkSearch p an vs ph) (mkSearch p' an vs ph).
Proof. intro. repeat split; auto. Qed.
Definition ssr (x y : option bool * ctx * search) : Prop := fst (fst x) = fst (fst y) /\ cr (snd (fst x)) (snd (fst y)) /\ sr (snd x) (snd y).
Lemma rel_search_step cx s s' : sr s s' -> rel ssr (search_step d cx s) (search_step d' (cxe pm cx) s').
Proof.
  intro H. destruct s' as [p' an vs ph]. pose proof H as (Hp & Ea & Ev & Eh). cbn [se_prop se_analysis se_vsids se_phases] in Hp, Ea, Ev, Eh. subst an vs ph.
  unfold search_step. cbn [se_prop se_analysis se_vsids se_phases].
  replace (p_unsat p') with (p_unsat (se_prop s)) by (destruct Hp as (? & -> & _); reflexivity).
  destruct (p_unsat (se_prop s)); [apply rel_ret; repeat split; auto|].
  eapply rel_bind; [apply rel_collect, Hp|]. intros p0 p0' H0. eapply rel_bind; [apply rel_propagate, H0|].
  intros [[cx1 p1] r] [[cx1' p1'] r'] (E1 & H1 & E2). cbn [fst snd] in *. subst r'. unfold cr in E1. subst cx1'. destruct r as [c|].
  - replace (decision_level (p_trail p1')) with (decision_level (p_trail p1)) by (destruct H1 as (? & -> & _); reflexivity).
    destruct (_ =? 0).
    + apply rel_ret. repeat split. cbn [se_prop snd]. destruct H1 as (ti & -> & Hi). exists ti. split; [reflexivity|exact Hi].
    + eapply rel_bind; [apply (rel_analyze (bump_conflicts cx1)), H1|]. intros [[[cx3 an] p2] cb] [[[cx3' an'] p2'] cb'] [(E3 & E4 & H2) E5]. cbn [fst snd] in *. subst an' cb'.
      apply rel_ret. repeat split; [exact E3|exact H2].
  - rewrite (pr_values _ _ H1). apply rel_bind_same. intros [[v|] vs] _.
    + apply rel_bind_same. intros l _. eapply rel_bind; [apply rel_assign_decision, H1|]. intros p2 p2' H2. apply rel_ret. repeat split. exact H2.
    + apply rel_ret. repeat split. exact H1.
Qed.
Definition csr (x y : ctx * search) : Prop := cr (fst x) (fst y) /\ sr (snd x) (snd y).
Lemma rel_restart cx s s' : sr s s' -> rel csr (restart d cx s) (restart d' (cxe pm cx) s').
Proof.
  intro H. destruct s' as [p' an vs ph]. pose proof H as (Hp & Ea & Ev & Eh). cbn [se_prop se_analysis se_vsids se_phases] in Hp, Ea, Ev, Eh. subst an vs ph.
  unfold restart. cbn [se_prop se_analysis se_vsids se_phases].
  replace (decision_level (p_trail p')) with (decision_level (p_trail (se_prop s))) by (destruct Hp as (? & -> & _); reflexivity).
  destruct (0 <? _); [|apply rel_ret; split; [reflexivity|exact H]].
  eapply rel_bind; [apply rel_backtrack, Hp|]. intros [p2 cb3] [p2' cb3'] [H2 E]. cbn [fst snd] in *. subst cb3'.
  apply rel_ret. split; [reflexivity|]. repeat split. exact H2.
Qed.
Lemma read_words_bad buf pos n : forall e, read_words buf pos n = Panic e -> bad e.
Proof. intros e. unfold read_words. destruct (_ <=? _); intro H; inversion H. discriminate. Qed.
Lemma long_lits_bad a c : (exists ls, long_lits a c = Ret ls) \/ exists e, bad e /\ long_lits a c = Panic e.
Proof.
  unfold long_lits, arena_lits, clause_len, vget, read_words. destruct (nth_error _ _); cbn [bind]; [|right; eexists; split; [|reflexivity]; discriminate].
  destruct (has_marker _); cbn [bind]; [|right; eexists; split; [|reflexivity]; discriminate].
  destruct (_ <=? _); [left|right]; eauto. eexists; split; [|reflexivity]. discriminate.
Qed.
Lemma rel_reduce select cx s s' : sr s s' -> rel csr (reduce select cx s) (reduce select (cxe pm cx) s').
Proof.
  intro H. destruct s' as [p' an vs ph]. pose proof H as (Hp & Ea & Ev & Eh). cbn [se_prop se_analysis se_vsids se_phases] in Hp, Ea, Ev, Eh. subst an vs ph.
  unfold reduce. cbn [se_prop se_analysis se_vsids se_phases]. unfold protect_clauses.
  replace (p_long p') with (p_long (se_prop s)) by (destruct Hp as (? & -> & _); reflexivity).
  replace (t_steps (p_trail p')) with (t_steps (p_trail (se_prop s))) by (destruct Hp as (? & -> & _); reflexivity).
  apply rel_bind_same. intros a1 _. apply rel_bind_same. intros [a2 cands] _. 
  eapply rel_bind with (R := fun x y => cr (fst x) (fst y) /\ snd x = snd y).
  - destruct cands as [|c cands]; [apply rel_ret; split; reflexivity|]. destruct (select _ _) as [[lo m] hi].
    apply (rel_foldM (fun x y => cr (fst x) (fst y) /\ snd x = snd y)); [|split; reflexivity].
    intros [c1 a] [c1' a'] x _ [E1 E2]. cbn [fst snd] in E1, E2. unfold cr in E1. subst a' c1'. unfold delete_candidate. rewrite cxe_stats.
    destruct (0 <? _); [|apply rel_panic]. eapply rel_bind with (R := cr).
    + cbn [cxe cx_proof cx_with]. destruct pm eqn:Epm; destruct (cx_proof c1) eqn:Ep.
      * apply rel_bind_same. intros ls _. apply rel_ret. unfold cr, cxe, cx_log, cx_with. rewrite Epm. cbn. rewrite Ep. reflexivity.
      * apply rel_ret. unfold cr, cxe, cx_log, cx_with. rewrite Epm. cbn. rewrite ?Ep. reflexivity.
      * destruct (long_lits_bad a (snd x)) as [(ls & ->)|(e & He & ->)]; cbn [bind]; [|apply rel_bad; exact He].
        apply rel_ret. unfold cr, cxe, cx_log, cx_with. rewrite Epm. reflexivity.
      * apply rel_ret. unfold cr, cxe, cx_log, cx_with. rewrite Epm. reflexivity.
    + intros c2 c2' E. apply rel_bind_same. intros a' _. apply rel_ret. split; [exact E|reflexivity].
  - intros [cx2 a3] [cx2' a3'] [E1 E2]. cbn [fst snd] in *. subst a3'. apply rel_bind_same. intros a4 _. apply rel_ret. split; [exact E1|].
    repeat split. cbn [snd se_prop]. apply pr_set_long, Hp.
Qed.

(** ** Solver *)
Definition str (s s' : state) : Prop := sr (sta_search s) (sta_search s') /\ sta_schedule s' = sta_schedule s.
Definition sor (s s' : solver) : Prop := cr (so_ctx s) (so_ctx s') /\ str (so_state s) (so_state s').
Lemma rel_report cx : rel (fun _ _ => True) (report d cx) (report d' (cxe pm cx)).
Proof.
  unfold report. rewrite cxe_stats. destruct d.
  - destruct (_ <=? _); [|apply rel_bad; discriminate]. destruct d'; apply rel_ret; auto.
  - destruct d'; [discriminate (Hd eq_refl)|]. apply rel_ret; auto.
Qed.
Definition rcs (x y : option bool * ctx * state) : Prop := fst (fst x) = fst (fst y) /\ cr (snd (fst x)) (snd (fst y)) /\ str (snd x) (snd y).
Lemma rel_schedule select cx st st' : str st st' -> rel rcs (schedule_search_step select d cx st) (schedule_search_step select d' (cxe pm cx) st').
Proof.
  intros [H E]. unfold schedule_search_step. rewrite E. change (should_restart (cxe pm cx) (sta_schedule st)) with (should_restart cx (sta_schedule st)).
  destruct (should_restart cx (sta_schedule st)) as [dr sc1]. eapply rel_bind with (R := csr).
  - destruct dr; [apply rel_restart, H|apply rel_ret; split; [reflexivity|exact H]].
  - intros [cx1 se1] [cx1' se1'] [E1 H1]. cbn [fst snd] in *. unfold cr in E1. subst cx1'. change (should_reduce (cxe pm cx1) sc1) with (should_reduce cx1 sc1).
    destruct (should_reduce cx1 sc1) as [dd sc2]. eapply rel_bind with (R := csr).
    + destruct dd; [|apply rel_ret; split; [reflexivity|exact H1]]. eapply rel_bind; [apply rel_reduce, H1|].
      intros [cx2 se2] [cx2' se2'] [E2 H2]. cbn [fst snd] in *. unfold cr in E2. subst cx2'. eapply rel_bind; [apply rel_report|]. intros _ _ _.
      apply rel_ret. split; [reflexivity|exact H2].
    + intros [cx2 se2] [cx2' se2'] [E2 H2]. cbn [fst snd] in *. unfold cr in E2. subst cx2'. eapply rel_bind; [apply rel_search_step, H2|].
      intros [[r cx3] se3] [[r' cx3'] se3'] (E3 & E4 & H3). cbn [fst snd] in *. subst r'. apply rel_ret. repeat split; cbn [fst snd]; auto; apply H3.
Qed.
Lemma rel_solve select fuel : forall s s', sor s s' -> rel (fun x y => fst x = fst y /\ sor (snd x) (snd y)) (solve select d fuel s) (solve select d' fuel s').
Proof.
  induction fuel as [|f IH]; intros s s' [E H]; cbn [solve]; [reflexivity|]. rewrite E. eapply rel_bind; [apply rel_schedule, H|].
  intros [[r cx] st] [[r' cx'] st'] (E1 & E2 & H2). cbn [fst snd] in *. subst r'. unfold cr in E2. subst cx'. destruct r as [b|].
  - eapply rel_bind; [apply rel_report|]. intros _ _ _. apply rel_ret. split; [reflexivity|]. split; [reflexivity|exact H2].
  - apply IH. split; [reflexivity|exact H2].
Qed.
Lemma rel_resize s s' n : sr s s' -> rel sr (search_resize s n) (search_resize s' n).
Proof.
  intro H. destruct s' as [p' an vs ph]. pose proof H as (Hp & Ea & Ev & Eh). cbn [se_prop se_analysis se_vsids se_phases] in Hp, Ea, Ev, Eh. subst an vs ph.
  unfold search_resize. cbn [se_prop se_analysis se_vsids se_phases]. apply rel_bind_same. intros v _. apply rel_ret. repeat split. cbn [se_prop].
  destruct Hp as (ti & -> & Hi). exists (vresize ti n None). split; [reflexivity|]. apply ile_resize, Hi.
Qed.
Lemma rel_solver_add s s' c : sor s s' -> rel sor (solver_add_clause d s c) (solver_add_clause d' s' c).
Proof.
  intros [E [H Es]]. unfold solver_add_clause. rewrite E, cxe_stats, Es. eapply rel_bind with (R := csr).
  - destruct (_ <? _); [|apply rel_ret; split; [reflexivity|exact H]]. eapply rel_bind; [apply rel_resize, H|]. intros se se' H1. apply rel_ret. split; [reflexivity|exact H1].
  - intros [cx1 se1] [cx1' se1'] [E1 (H1 & E2 & E3 & E4)]. cbn [fst snd] in *. unfold cr in E1. subst cx1'. rewrite E2, E3, E4.
    eapply rel_bind; [apply rel_add_clause, H1|]. intros [[ad cx2] p1] [[ad' cx2'] p1'] (E5 & E6 & H2). cbn [fst snd] in *.
    apply rel_ret. split; [exact E6|]. split; [|reflexivity]. repeat split. exact H2.
Qed.
Lemma sor_value s s' l : sor s s' -> solver_value s' l = solver_value s l.
Proof.
  intros [E [(Hp & _) _]]. unfold solver_value. rewrite E, cxe_stats. rewrite (pr_values _ _ Hp). reflexivity.
Qed.
End Sim.
