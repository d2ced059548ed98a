(** The clause database as a list of clauses: what the arena, the binary lists
    and the trail hold, in terms of the input clauses [F] and the learned
    clauses [L]. *)
From Coq Require Import NArith List Bool Arith Lia Permutation Sorted ZifyN ZifyNat ZifyBool.
From Verif Require Import Model_Base Model_Lit Model_PartialAssignment Model_Header Model_Arena Model_Prop
  Model_Heap Model_Vsids Model_Analysis Spec Drivers_Arena Proof_Base Proof_PA Proof_Lit Proof_Header Proof_Arena
  Proof_ArenaHist Proof_Long Proof_Trail Proof_Heap Proof_Backtrack Proof_Inv Proof_Propagate Proof_PropOps Proof_Gc Proof_Glue
  Proof_Analysis Proof_Minimize Proof_Learn.
Import ListNotations.

(** ** Lists of clauses up to order *)
Definition meq (A B : list (list N)) : Prop := exists A', Permutation A A' /\ Forall2 (@Permutation N) A' B.

Lemma meq_nil : meq [] [].
Proof. exists []. split; constructor. Qed.
Lemma meq_snoc A B l : meq A B -> meq (A ++ [l]) (B ++ [l]).
Proof.
  intros (A' & P & F). exists (A' ++ [l]). split; [apply Permutation_app; auto|]. apply Forall2_app; auto.
Qed.
Lemma meq_perm_l A A2 B : Forall2 (@Permutation N) A A2 -> meq A B -> meq A2 B.
Proof.
  intros F (A' & P & G). destruct (Permutation_Forall2 P F) as (A2' & P2 & F2). exists A2'. split; auto.
  clear -F2 G. revert A2' F2. induction G; intros A2' F2; inversion F2; subst; constructor; auto.
  eapply Permutation_trans; [apply Permutation_sym; eauto|]; auto.
Qed.
Lemma meq_in A B l : meq A B -> In l A -> exists c, In c B /\ Permutation l c.
Proof.
  intros (A' & P & F) Hi. apply (Permutation_in _ P) in Hi. clear P A. induction F; [contradiction|]. destruct Hi as [->|Hi].
  - simpl; eauto.
  - destruct (IHF Hi) as (c1 & X & Y). simpl; eauto.
Qed.
Lemma meq_in_rev A B c : meq A B -> In c B -> exists l, In l A /\ Permutation l c.
Proof.
  intros (A' & P & F) Hi. assert (G : exists l, In l A' /\ Permutation l c).
  { clear P A. induction F; [contradiction|]. destruct Hi as [->|Hi].
    - simpl; eauto.
    - destruct (IHF Hi) as (l1 & X & Y). simpl; eauto. }
  destruct G as (l & X & Y). exists l. split; auto. eapply Permutation_in; [apply Permutation_sym|]; eauto.
Qed.
Lemma meq_length A B : meq A B -> length A = length B.
Proof. intros (A' & P & F). rewrite (Permutation_length P). clear P. induction F; simpl; auto. Qed.
Lemma meq_remove A1 l A2 B : meq (A1 ++ l :: A2) B ->
  exists B1 c B2, B = B1 ++ c :: B2 /\ Permutation l c /\ meq (A1 ++ A2) (B1 ++ B2).
Proof.
  intros (A' & P & F). assert (Hi : In l A') by (eapply Permutation_in; [exact P|]; apply in_elt).
  apply in_split in Hi as (X & Y & ->). apply Forall2_app_inv_l in F as (B1 & B' & F1 & F2 & ->).
  inversion F2 as [|? c ? B2 Hc F3]; subst. exists B1, c, B2. split; auto. split; auto. exists (X ++ Y). split; [|apply Forall2_app; auto].
  apply Permutation_app_inv with (a := l). exact P.
Qed.

Lemma filter_split {A} (f : A -> bool) l x1 c x2 : filter f l = x1 ++ c :: x2 ->
  exists l1 l2, l = l1 ++ c :: l2 /\ filter f l1 = x1 /\ filter f l2 = x2 /\ f c = true.
Proof.
  revert x1. induction l as [|a l IH]; simpl; intros x1 E; [destruct x1; discriminate|].
  destruct (f a) eqn:Ea.
  - destruct x1 as [|y x1]; simpl in E; inversion E; subst.
    + exists [], l. auto.
    + destruct (IH x1 H1) as (l1 & l2 & -> & A1 & A2 & A3). exists (y :: l1), l2. simpl. rewrite Ea. subst. auto.
  - destruct (IH x1 E) as (l1 & l2 & -> & A1 & A2 & A3). exists (a :: l1), l2. simpl. rewrite Ea. auto.
Qed.

(** ** Reading the state *)
Definition liveb (r : bool) (e : lent) : bool := le_live e && Bool.eqb (lh_redundant (le_hdr e)) r.
Definition live (r : bool) (es : list lent) : list (list N) := map le_lits (filter (liveb r) es).
Definition longb (c : list N) : bool := 3 <=? length c.
Definition binof (x : N) (c : list N) : list N :=
  match c with
  | [u; v] => (if (x =? u)%N then [v] else []) ++ (if (x =? v)%N then [u] else [])
  | _ => []
  end.

Record DBR (F L : list (list N)) (es : list lent) (b : list (list N)) (ss : list step) (us : bool) : Prop := {
  db_red : meq (live true es) (filter longb L);
  db_irr : meq (live false es) (filter longb F);
  db_bin : forall x, Permutation (bin b x) (flat_map (binof x) (L ++ F));
  db_unit : forall s, In s ss -> s_reason s = RUnit -> In [s_lit s] (L ++ F);
  db_fact : forall l, In [l] (L ++ F) -> us = true \/ exists s, In s ss /\ s_lit s = l /\ s_level s = 0;
  db_empty : In [] (L ++ F) -> us = true }.

Lemma in_live c h l es : In (c, h, l) es -> l <> [] -> In l (live (lh_redundant h) es).
Proof.
  intros Hi Hl. unfold live. apply in_map_iff. exists (c, h, l). split; auto. apply filter_In. split; auto.
  unfold liveb. rewrite (proj2 (le_live_ne c h l) Hl). unfold le_hdr; cbn [fst snd]. rewrite Bool.eqb_reflx. auto.
Qed.
Lemma live_in r l es : In l (live r es) -> exists c h, In (c, h, l) es /\ l <> [] /\ lh_redundant h = r.
Proof.
  unfold live. rewrite in_map_iff. intros ([[c h] l'] & E & Hi). apply filter_In in Hi as [Hi Hb].
  unfold liveb in Hb. apply andb_true_iff in Hb as [H1 H2]. unfold le_lits in E; cbn [snd] in E; subst l'.
  apply le_live_ne in H1. apply Bool.eqb_prop in H2. unfold le_hdr in H2; cbn [fst snd] in H2. eauto.
Qed.

Lemma binof_in x y c : In y (binof x c) <-> c = [x; y] \/ c = [y; x].
Proof.
  unfold binof. destruct c as [|u [|v [|w r]]]; try (split; [intros []|intros [?|?]; discriminate]).
  rewrite in_app_iff.
  assert (A : forall u v, In y (if (x =? u)%N then [v] else []) <-> x = u /\ y = v).
  { intros u' v'. destruct (N.eqb_spec x u'); simpl; split; intuition congruence. }
  rewrite !A. split.
  - intros [[-> ->]|[-> ->]]; auto.
  - intros [E|E]; inversion E; subst; auto.
Qed.

Section Read.
Context {F L es b ss us} (H : DBR F L es b ss us).

Lemma db_long c h l : In (c, h, l) es -> l <> [] -> exists cl, In cl (L ++ F) /\ Permutation l cl.
Proof.
  intros Hi Hl. pose proof (in_live _ _ _ _ Hi Hl) as G. destruct (lh_redundant h).
  - destruct (meq_in _ _ _ (db_red _ _ _ _ _ _ H) G) as (cl & A & B). apply filter_In in A as [A _].
    exists cl. split; auto. apply in_or_app; auto.
  - destruct (meq_in _ _ _ (db_irr _ _ _ _ _ _ H) G) as (cl & A & B). apply filter_In in A as [A _].
    exists cl. split; auto. apply in_or_app; auto.
Qed.
Lemma db_bin_in x y : In y (bin b x) <-> In [x; y] (L ++ F) \/ In [y; x] (L ++ F).
Proof.
  split.
  - intro Hi. apply (Permutation_in _ (db_bin _ _ _ _ _ _ H x)) in Hi. apply in_flat_map in Hi as (c & Hc & Hb).
    apply binof_in in Hb as [-> | ->]; auto.
  - intro Hi. eapply Permutation_in; [apply Permutation_sym, (db_bin _ _ _ _ _ _ H x)|]. apply in_flat_map.
    destruct Hi as [Hi|Hi]; [exists [x; y]|exists [y; x]]; split; auto; apply binof_in; auto.
Qed.
Lemma db_stored n cl : stored n es b cl -> exists c, In c (L ++ F) /\ Permutation cl c.
Proof.
  intros [(c & h & Hi & Hl)|(x & y & -> & _ & Hi)].
  - eapply db_long; eauto.
  - apply db_bin_in in Hi as [Hi|Hi]; [exists [x; y]|exists [y; x]]; split; auto. apply perm_swap.
Qed.
Lemma db_stored_rev n c : (forall x, In x c -> vidx x < n) -> In c (L ++ F) -> 2 <= length c ->
  exists cl, stored n es b cl /\ Permutation cl c.
Proof.
  intros Hv Hi Hl. destruct (longb c) eqn:E.
  - assert (G : exists r l, In l (live r es) /\ Permutation l c).
    { apply in_app_or in Hi as [Hi|Hi].
      - destruct (meq_in_rev _ _ c (db_red _ _ _ _ _ _ H)) as (l & A & B); [apply filter_In; auto|eauto].
      - destruct (meq_in_rev _ _ c (db_irr _ _ _ _ _ _ H)) as (l & A & B); [apply filter_In; auto|eauto]. }
    destruct G as (r & l & A & B). apply live_in in A as (cr & h & A & A' & _). exists l. split; auto. left. eauto.
  - unfold longb in E. apply Nat.leb_gt in E. destruct c as [|x [|y [|]]]; simpl in *; try lia.
    exists [x; y]. split; auto. right. exists x, y. split; auto. split; auto. apply db_bin_in. auto.
Qed.
End Read.

(** ** Unit propagation on the database covers the trail *)
Lemma up_perm D A c cl l : In c D -> Permutation cl c -> In l cl -> (forall x, In x cl -> x <> l -> up D A (neg x)) -> up D A l.
Proof.
  intros Hi P Hl Hx. apply up_unit with c; auto.
  - eapply Permutation_in; eauto.
  - intros x X N. apply Hx; auto. eapply Permutation_in; [apply Permutation_sym|]; eauto.
Qed.

Lemma closed_up {F L es b ss us} A : DBR F L es b ss us -> RI es b ss -> closed es ss (up (L ++ F) A).
Proof.
  intros H HR i s rl E R Hx. pose proof (HR i s E) as RI'. unfold rsn in R. destruct (s_reason s) eqn:Er; [contradiction| | |].
  - apply up_unit with [s_lit s]; [eapply db_unit; eauto; eapply nth_error_In; eauto|left; auto|].
    intros x [<-|[]] N. contradiction.
  - subst. destruct RI' as [G _]. apply (db_bin_in H) in G.
    assert (G' : exists c, In c (L ++ F) /\ Permutation [s_lit s; l] c).
    { destruct G; [exists [s_lit s; l]|exists [l; s_lit s]]; split; auto. apply perm_swap. }
    destruct G' as (c & Hc & P). apply (up_perm _ _ c [s_lit s; l]); simpl; auto.
    intros x [<-|[<-|[]]] N; [contradiction|]. apply Hx. simpl; auto.
  - destruct R as (h & R). destruct (db_long H _ _ _ R ltac:(discriminate)) as (c' & Hc & P).
    apply (up_perm _ _ c' (s_lit s :: rl)); simpl; auto. intros x [<-|Hi] N; [contradiction|]. auto.
Qed.

Lemma up_mono D D' A A' l : incl D D' -> incl A A' -> up D A l -> up D' A' l.
Proof. intros H HA U. induction U; [apply up_assume; auto|]. apply up_unit with c; auto. Qed.
Lemma up_conflict_mono D D' A A' : incl D D' -> incl A A' -> up_conflict D A -> up_conflict D' A'.
Proof. intros H HA (c & Hc & Hx). exists c. split; auto. intros x X. eapply up_mono; eauto. Qed.

(** Every level-0 literal is derived by unit propagation. *)
Lemma up_zero {F L es n p us} A s : PI n es p -> DBR F L es (p_binary p) (t_steps (p_trail p)) us ->
  In s (t_steps (p_trail p)) -> s_level s = 0 -> up (L ++ F) A (s_lit s).
Proof.
  intros HP H Hs Hl. apply In_nth_error in Hs as [i E].
  eapply closed_zero; eauto. eapply closed_up; [eauto|apply HP].
Qed.

Lemma learned_RUP {F L es n p us} cl C : PI n es p -> DBR F L es (p_binary p) (t_steps (p_trail p)) us ->
  stored n es (p_binary p) cl -> learned_from es (t_steps (p_trail p)) cl C -> RUP (L ++ F) C.
Proof.
  intros HP H Hs Hl. destruct (db_stored H n cl Hs) as (c & Hc & P). exists c. split; auto. intros x Hx.
  apply (Hl (up (L ++ F) (map neg C))).
  - eapply closed_up; [eauto|apply HP].
  - intros y Hy. apply up_assume. apply in_map. auto.
  - eapply Permutation_in; [apply Permutation_sym|]; eauto.
Qed.

Lemma conf_stored n es p c : conf_ok n es p c -> exists cl, conflict_lits (p_long p) c = Ret cl /\ stored n es (p_binary p) cl.
Proof.
  intros (cl & E & A & _). exists cl. split; auto. destruct c as [x y|c].
  - cbn [conflict_lits] in E. inversion E; subst. right. exists x, y. tauto.
  - destruct A as (h & A). left. eauto.
Qed.

Lemma conf_zero {F L es n p us} c : PI n es p -> DBR F L es (p_binary p) (t_steps (p_trail p)) us ->
  conf_ok n es p c -> decision_level (p_trail p) = 0 -> up_conflict (L ++ F) [].
Proof.
  intros HP H Hc Hd. destruct (conf_stored _ _ _ _ Hc) as (cl & E & Hs). destruct Hc as (cl' & E' & _ & Hf & _).
  rewrite E in E'. inversion E'; subst cl'. destruct (db_stored H n cl Hs) as (c' & Hi & P). exists c'. split; auto.
  intros x Hx. apply (Permutation_in _ (Permutation_sym P)) in Hx. specialize (Hf x Hx). apply in_slits in Hf as (i & s & Es & El).
  rewrite <- El. eapply up_zero; eauto. eapply nth_error_In; eauto.
  rewrite (tr_lev _ _ (pi_tr _ _ _ _ HP) _ _ Es). rewrite (tr_dl n) in Hd by apply HP.
  destruct (tl (t_decisions (p_trail p))); [reflexivity|discriminate].
Qed.

(** ** Soundness of unit propagation and of proofs *)
Lemma sat_neg v x : sat_lit v (neg x) <-> ~ sat_lit v x.
Proof.
  unfold sat_lit, neg. destruct (N.odd x) eqn:O.
  - assert (E : ((x - 1) / 2 = x / 2)%N).
    { rewrite (N.div_mod' x 2) at 1. rewrite <- N.bit0_mod, N.bit0_odd, O. cbn [N.b2n].
      replace (2 * (x / 2) + 1 - 1)%N with ((x / 2) * 2)%N by lia. apply N.div_mul. lia. }
    rewrite E. replace (N.odd (x - 1)) with false.
    + destruct (v (x / 2)%N); intuition congruence.
    + symmetry. rewrite <- N.negb_even. apply negb_false_iff. apply N.odd_spec in O as [k O]. apply N.even_spec. exists k. lia.
  - assert (E : ((x + 1) / 2 = x / 2)%N).
    { rewrite (N.div_mod' x 2) at 1. rewrite <- N.bit0_mod, N.bit0_odd, O. cbn [N.b2n].
      replace (2 * (x / 2) + 0 + 1)%N with (1 + (x / 2) * 2)%N by lia. rewrite N.div_add by lia. reflexivity. }
    rewrite E. replace (N.odd (x + 1)) with true.
    + destruct (v (x / 2)%N); intuition congruence.
    + symmetry. apply N.odd_spec. rewrite <- N.negb_even in O. apply negb_false_iff in O. apply N.even_spec in O as [k O]. exists k. lia.
Qed.

Lemma up_sound D A v l : sat_cnf v D -> (forall x, In x A -> sat_lit v x) -> up D A l -> sat_lit v l.
Proof.
  intros HD HA U. induction U as [l Hl|c l Hc Hl Hx IH]; auto.
  destruct (HD c Hc) as (y & Hy & Sy). destruct (N.eq_dec y l) as [->|N]; auto.
  exfalso. apply (proj1 (sat_neg v y)); auto.
Qed.
Lemma up_conflict_sound D A v : sat_cnf v D -> (forall x, In x A -> sat_lit v x) -> up_conflict D A -> False.
Proof.
  intros HD HA (c & Hc & Hx). destruct (HD c Hc) as (y & Hy & Sy). apply (sat_neg v y); auto. eapply up_sound; eauto.
Qed.
Lemma RUP_sound D c v : sat_cnf v D -> RUP D c -> sat_clause v c.
Proof.
  intros HD HR. destruct (Exists_dec (fun x => v (x / 2)%N = N.odd x) c (fun x => Bool.bool_dec _ _)) as [E|E].
  - apply Exists_exists in E. exact E.
  - exfalso. apply (up_conflict_sound D (map neg c) v); auto. intros x Hx. apply in_map_iff in Hx as (y & <- & Hy).
    apply sat_neg. intro S. apply E. apply Exists_exists. exists y. split; auto.
Qed.
Lemma drat_sound F steps L v : drat_run F steps L -> sat_cnf v F -> sat_cnf v L.
Proof.
  intros D HF. induction D as [|steps L c D IH HR|steps L1 c' L2 c D IH P].
  - intros c [].
  - intros x Hx. apply in_app_or in Hx as [Hx|[<-|[]]]; auto. apply (RUP_sound (L ++ F)); auto.
    intros y Hy. apply in_app_or in Hy as [Hy|Hy]; auto.
  - intros x Hx. apply IH. apply in_app_or in Hx as [Hx|Hx]; apply in_or_app; simpl; auto.
Qed.
Lemma drat_refutes F steps L : drat_run F steps L -> up_conflict (L ++ F) [] -> ~ satisfiable F.
Proof.
  intros D U (v & HF). apply (up_conflict_sound (L ++ F) [] v); auto; [|intros x []].
  intros c Hc. apply in_app_or in Hc as [Hc|Hc]; auto. eapply drat_sound; eauto.
Qed.

(** ** Preservation *)
Lemma live_ESR es es' r : ESR es es' -> Forall2 (@Permutation N) (live r es) (live r es').
Proof.
  intro H. unfold live. induction H as [|e e' l l' (A & B & C & D) HF IH]; cbn [filter map]; [constructor|].
  assert (E : liveb r e' = liveb r e).
  { unfold liveb, le_live. rewrite C. f_equal. destruct (le_lits e) as [|x1 r1] eqn:X.
    - apply Permutation_nil in B. rewrite B. auto.
    - destruct (le_lits e') eqn:Y; auto. apply Permutation_sym, Permutation_nil in B. discriminate. }
  rewrite E. destruct (liveb r e); cbn [map]; auto.
Qed.
Lemma live_ESH es es' r : ESH es es' -> live r es' = live r es.
Proof.
  intro H. unfold live. induction H as [|e e' l l' (A & B & C & D) HF IH]; cbn [filter map]; auto.
  assert (E : liveb r e' = liveb r e) by (unfold liveb, le_live; rewrite B, C; auto).
  rewrite E. destruct (liveb r e); cbn [map]; congruence.
Qed.
Lemma live_filter es r : live r (filter le_live es) = live r es.
Proof.
  unfold live. induction es as [|e es IH]; cbn [filter]; auto.
  assert (G : liveb r e = le_live e && Bool.eqb (lh_redundant (le_hdr e)) r) by reflexivity.
  destruct (le_live e) eqn:E; cbn [filter]; rewrite G; cbn [andb]; auto.
  destruct (Bool.eqb _ _); cbn [map]; congruence.
Qed.
Lemma live_GCE gaps es es' r : GCE gaps es es' -> live r es' = live r es.
Proof.
  intro H. rewrite <- (live_filter es). unfold GCE in H. unfold live.
  induction H as [|e e' l l' (A & B & C) HF IH]; cbn [filter map]; auto.
  assert (E : liveb r e' = liveb r e) by (unfold liveb, le_live; rewrite B, C; auto).
  rewrite E. destruct (liveb r e); cbn [map]; congruence.
Qed.
Lemma live_app es1 es2 r : live r (es1 ++ es2) = live r es1 ++ live r es2.
Proof. unfold live. rewrite filter_app, map_app. auto. Qed.

Lemma DBR_ESR F L es es' b ss us : ESR es es' -> DBR F L es b ss us -> DBR F L es' b ss us.
Proof.
  intros E H. constructor; try apply H; (eapply meq_perm_l; [apply live_ESR; eauto|]; apply H).
Qed.
Lemma DBR_live F L es es' b ss us : (forall r, live r es' = live r es) -> DBR F L es b ss us -> DBR F L es' b ss us.
Proof. intros E H. constructor; try rewrite E; apply H. Qed.
Lemma DBR_steps F L es b ss ss' us : DBR F L es b ss us ->
  (forall s, In s ss' -> s_reason s = RUnit -> In s ss) ->
  (forall s, In s ss -> s_level s = 0 -> exists s', In s' ss' /\ s_lit s' = s_lit s /\ s_level s' = 0) -> DBR F L es b ss' us.
Proof.
  intros H A B. constructor; try apply H.
  - intros s Hs R. eapply db_unit; eauto.
  - intros l Hl. destruct (db_fact _ _ _ _ _ _ H l Hl) as [U|(s & S1 & S2 & S3)]; auto. right.
    destruct (B s S1 S3) as (s' & X & Y & Z). exists s'. split; auto. split; congruence.
Qed.
Lemma DBR_us F L es b ss us : DBR F L es b ss us -> DBR F L es b ss true.
Proof. intro H. constructor; auto; apply H. Qed.

(** Extending the trail. *)
Lemma DBR_ext F L es b ss ext us : DBR F L es b ss us -> (forall s, In s ext -> s_reason s <> RUnit) -> DBR F L es b (ss ++ ext) us.
Proof.
  intros H A. eapply DBR_steps; eauto.
  - intros s Hs R. apply in_app_or in Hs as [Hs|Hs]; auto. exfalso. eapply A; eauto.
  - intros s Hs Hl. exists s. rewrite in_app_iff. auto.
Qed.

(** Backtracking. *)
Lemma zero_firstn n t level target s : TR n t -> nth_error (tl (t_decisions t)) level = Some target ->
  In s (t_steps t) -> s_level s = 0 -> In s (firstn target (t_steps t)).
Proof.
  intros HT Et Hs Hl. apply In_nth_error in Hs as [i E]. rewrite (tr_lev _ _ HT _ _ E) in Hl.
  assert (Lt : i < target).
  { destruct (tl (t_decisions t)) as [|d0 ds] eqn:Ed; [destruct level; discriminate|].
    assert (Hd : d0 <= target).
    { pose proof (tr_sort _ _ HT) as S. rewrite Ed in S. inversion S as [|? ? S1 S2]; subst. destruct level; cbn [nth_error] in Et.
      - inversion Et; lia.
      - apply nth_error_In in Et. rewrite Forall_forall in S2. specialize (S2 _ Et). lia. }
    destruct (Nat.le_gt_cases d0 i) as [G|G]; [|lia]. exfalso.
    unfold lvl in Hl. cbn [filter] in Hl. destruct (Nat.leb_spec d0 i); [discriminate|lia]. }
  apply nth_error_In with i. rewrite nth_error_firstn. destruct (Nat.ltb_spec i target); [auto|lia].
Qed.

Lemma DBR_back F L es b n t level target us : TR n t -> nth_error (tl (t_decisions t)) level = Some target ->
  DBR F L es b (t_steps t) us -> DBR F L es b (firstn target (t_steps t)) us.
Proof.
  intros HT Et H. eapply DBR_steps; eauto.
  - intros s Hs _. eapply in_firstn; eauto.
  - intros s Hs Hl. exists s. split; auto. eapply zero_firstn; eauto.
Qed.

(** Garbage collection renames clause references only. *)
Lemma DBR_gc F L es es' b t f gaps us : GCE gaps es es' -> DBR F L es b (t_steps t) us -> DBR F L es' b (t_steps (gc_trail f t)) us.
Proof.
  intros G H. apply (DBR_live _ _ _ _ _ _ _ (fun r => live_GCE _ _ _ r G)) in H.
  constructor; try apply H; cbn [t_steps gc_trail].
  - intros s Hs R. apply in_map_iff in Hs as (s0 & <- & Hs). rewrite gc_step_lit.
    assert (R0 : s_reason s0 = RUnit) by (unfold gc_step in R; destruct (s_reason s0) eqn:E; cbn [s_reason] in R; congruence).
    eapply db_unit; eauto.
  - intros l Hl. destruct (db_fact _ _ _ _ _ _ H l Hl) as [U|(s & S1 & S2 & S3)]; auto. right.
    exists (gc_step f s). split; [apply in_map; auto|]. rewrite gc_step_lit, gc_step_level. auto.
Qed.

(** Adding a clause, as an input clause or as a learned one. *)
Lemma flat_map_snoc {A B} (f : A -> list B) l x : flat_map f (l ++ [x]) = flat_map f l ++ f x.
Proof. rewrite flat_map_app. simpl. rewrite app_nil_r. auto. Qed.

Lemma live_add h cl es b es' b' r : db_add h cl es b es' b' ->
  live r es' = live r es ++ (if longb cl && Bool.eqb (lh_redundant h) r then [cl] else []).
Proof.
  intro H. destruct cl as [|x [|y [|z cl]]]; cbn [longb length Nat.leb andb].
  1-3: destruct H as [-> _]; rewrite app_nil_r; auto.
  destruct H as (_ & c & -> & _). rewrite live_app. f_equal. unfold live, liveb. cbn [filter le_live le_hdr le_lits fst snd].
  unfold le_live, le_lits. cbn [snd]. cbn [andb]. destruct (Bool.eqb _ _); reflexivity.
Qed.
Lemma bin_db_add h cl es b es' b' x : db_add h cl es b es' b' -> bin b' x = bin b x ++ binof x cl.
Proof.
  intro H. destruct cl as [|u [|v [|w cl]]]; cbn [binof].
  1,2: destruct H as [_ ->]; rewrite app_nil_r; auto.
  - destruct H as [_ ->]. unfold badd. auto.
  - destruct H as [-> _]. rewrite app_nil_r; auto.
Qed.

Lemma in_ctx {A} (x : A) a c b : In x (a ++ c :: b) <-> x = c \/ In x (a ++ b).
Proof. rewrite !in_app_iff. simpl. intuition congruence. Qed.

Definition Ladd (r : bool) (L : list (list N)) (cl : list N) := if r then L ++ [cl] else L.

Lemma in_Ladd r L F cl x : In x (Ladd r L cl ++ Ladd (negb r) F cl) <-> x = cl \/ In x (L ++ F).
Proof. destruct r; cbn [Ladd negb]; rewrite !in_app_iff; simpl; intuition congruence. Qed.

Lemma DBR_add F L es b ss us h cl es' b' ss' us' : DBR F L es b ss us -> db_add h cl es b es' b' ->
  (us = true -> us' = true) ->
  (forall s, In s ss' -> s_reason s = RUnit -> In s ss \/ cl = [s_lit s]) ->
  (forall s, In s ss -> s_level s = 0 -> exists s', In s' ss' /\ s_lit s' = s_lit s /\ s_level s' = 0) ->
  (forall l, cl = [l] -> us' = true \/ exists s, In s ss' /\ s_lit s = l /\ s_level s = 0) -> (cl = [] -> us' = true) ->
  DBR (Ladd (negb (lh_redundant h)) F cl) (Ladd (lh_redundant h) L cl) es' b' ss' us'.
Proof.
  intros H HA Hus A B C D. set (r := lh_redundant h).
  constructor.
  - rewrite (live_add _ _ _ _ _ _ true HA). fold r. destruct r; cbn [Ladd Bool.eqb].
    + rewrite filter_app. cbn [filter]. rewrite andb_true_r. destruct (longb cl); [apply meq_snoc; apply H|]. rewrite !app_nil_r. apply H.
    + rewrite andb_false_r, app_nil_r. apply H.
  - rewrite (live_add _ _ _ _ _ _ false HA). fold r. destruct r; cbn [Ladd Bool.eqb negb].
    + rewrite andb_false_r, app_nil_r. apply H.
    + rewrite filter_app. cbn [filter]. rewrite andb_true_r. destruct (longb cl); [apply meq_snoc; apply H|]. rewrite !app_nil_r. apply H.
  - intro x. rewrite (bin_db_add _ _ _ _ _ _ x HA). eapply Permutation_trans; [apply Permutation_app_tail, (db_bin _ _ _ _ _ _ H)|].
    destruct r; cbn [Ladd negb]; rewrite !flat_map_app; cbn [flat_map]; rewrite ?app_nil_r, <- ?app_assoc; auto.
    apply Permutation_app_head. apply Permutation_app_comm.
  - intros s Hs R. apply in_Ladd. destruct (A s Hs R) as [X|X]; auto. right. eapply db_unit; eauto.
  - intros l Hl. apply in_Ladd in Hl as [E|Hl]; auto. destruct (db_fact _ _ _ _ _ _ H l Hl) as [U|(s & S1 & S2 & S3)]; auto. right.
    destruct (B s S1 S3) as (s' & X & Y & Z). exists s'. split; auto. split; congruence.
  - intro Hi. apply in_Ladd in Hi as [E|Hi]; auto. apply Hus. eapply db_empty; eauto.
Qed.

(** Deleting a learned long clause. *)
Lemma live_del c h h' (l : list N) es (r : bool) : NoDup (map le_ref es) -> In (c, h, l) es -> l <> [] ->
  exists A B, live (lh_redundant h) es = A ++ l :: B /\ live (lh_redundant h) (les_upd c h' [] es) = A ++ B /\ (r <> lh_redundant h -> live r (les_upd c h' [] es) = live r es).
Proof.
  intros ND Hi Hl. apply in_split in Hi as (e1 & e2 & ->). rewrite map_app in ND. cbn [map] in ND.
  assert (E : les_upd c h' [] (e1 ++ (c, h, l) :: e2) = e1 ++ (c, h', []) :: e2).
  { apply NoDup_remove in ND as [_ ND]. rewrite in_app_iff in ND. unfold les_upd. rewrite map_app. cbn [map].
    unfold le_ref at 2. cbn [fst]. rewrite Nat.eqb_refl.
    assert (G : forall e, ~ In c (map le_ref e) -> map (fun e => if le_ref e =? c then (c, h', []) else e) e = e).
    { clear. induction e as [|x e IH]; simpl; intro N; auto. destruct (Nat.eqb_spec (le_ref x) c); [exfalso; auto|]. f_equal. auto. }
    unfold le_ref at 2 4 in ND. cbn [fst] in ND. rewrite !G; auto. }
  rewrite E. exists (live (lh_redundant h) e1), (live (lh_redundant h) e2).
  assert (X : forall r h0 l0, live r ((c, h0, l0) :: e2) = (if le_live (c, h0, l0) && Bool.eqb (lh_redundant h0) r then [l0] else []) ++ live r e2).
  { intros. unfold live. cbn [filter]. unfold liveb at 1. unfold le_hdr; cbn [fst snd]. destruct (_ && _); reflexivity. }
  rewrite !live_app, !X. rewrite (proj2 (le_live_ne c h l) Hl), Bool.eqb_reflx. cbn [andb app].
  split; auto. split; auto. intro N. rewrite ?live_app, ?X, ?(proj2 (le_live_ne c h l) Hl).
  destruct (lh_redundant h), r; try congruence; reflexivity.
Qed.

Lemma DBR_delete F L es b ss us c h h' l : NoDup (map le_ref es) -> DBR F L es b ss us -> In (c, h, l) es -> l <> [] ->
  lh_redundant h = true -> 3 <= length l ->
  exists L1 c' L2, L = L1 ++ c' :: L2 /\ Permutation l c' /\ DBR F (L1 ++ L2) (les_upd c h' [] es) b ss us.
Proof.
  intros ND H Hi Hl R H3. destruct (live_del c h h' l es false ND Hi Hl) as (A & B & E1 & E2 & E3). rewrite R in *.
  specialize (E3 ltac:(discriminate)).
  pose proof (db_red _ _ _ _ _ _ H) as M. rewrite E1 in M. destruct (meq_remove _ _ _ _ M) as (B1 & c' & B2 & Ef & P & M').
  destruct (filter_split _ _ _ _ _ Ef) as (L1 & L2 & -> & F1 & F2 & _). exists L1, c', L2. split; auto. split; auto.
  assert (Hc : 3 <= length c') by (rewrite <- (Permutation_length P); auto).
  assert (Hin : forall x, length x < 3 -> In x ((L1 ++ L2) ++ F) -> In x ((L1 ++ c' :: L2) ++ F)).
  { intros x _ Hx. rewrite !in_app_iff in *. simpl. tauto. }
  assert (Hin' : forall x, length x < 3 -> In x ((L1 ++ c' :: L2) ++ F) -> In x ((L1 ++ L2) ++ F)).
  { intros x Lx Hx. rewrite !in_app_iff in *. simpl in Hx. intuition. subst. lia. }
  constructor.
  - rewrite E2, filter_app, F1, F2. auto.
  - rewrite E3. apply H.
  - intro x. eapply Permutation_trans; [apply (db_bin _ _ _ _ _ _ H)|]. rewrite !flat_map_app. cbn [flat_map].
    replace (binof x c') with (@nil N); [apply Permutation_refl|]. destruct c' as [|? [|? [|]]]; simpl in Hc; try lia. auto.
  - intros s Hs Rs. apply Hin'; [simpl; lia|]. eapply db_unit; eauto.
  - intros x Hx. eapply db_fact; eauto.
  - intro Hx. eapply db_empty; eauto.
Qed.
