(** Clause database reduction. *)
From Coq Require Import NArith List Bool Arith Lia Permutation Sorted ZifyN ZifyNat ZifyBool.
From Verif Require Import Model_Base Model_Lit Model_PartialAssignment Model_Header Model_Arena Model_Prop
  Model_Heap Model_Vsids Model_Analysis Model_Luby Model_Solver Spec Drivers_Arena Proof_Base Proof_PA Proof_Lit Proof_Header Proof_Arena
  Proof_ArenaHist Proof_Long Proof_Trail Proof_Heap Proof_Backtrack Proof_Inv Proof_Propagate Proof_PropOps Proof_Gc Proof_Glue
  Proof_Analysis Proof_Minimize Proof_Learn Proof_DB.
Import ListNotations.

(** ** Changing headers entry by entry *)
(** Everything but the protected flag and the usage count is kept. *)
Definition hkeep (e e' : lent) : Prop :=
  le_ref e' = le_ref e /\ le_lits e' = le_lits e /\
  lh_redundant (le_hdr e') = lh_redundant (le_hdr e) /\ lh_search_pos (le_hdr e') = lh_search_pos (le_hdr e) /\
  lh_glue (le_hdr e') = lh_glue (le_hdr e).

Lemma Forall2_refl_P {A} (P : A -> A -> Prop) l : (forall x, P x x) -> Forall2 P l l.
Proof. intro H. induction l; constructor; auto. Qed.
Lemma Forall2_comp {A} (P Q R : A -> A -> Prop) l1 l2 l3 : (forall x y z, P x y -> Q y z -> R x z) ->
  Forall2 P l1 l2 -> Forall2 Q l2 l3 -> Forall2 R l1 l3.
Proof.
  intros H F. revert l3. induction F; intros l3 G; inversion G; subst; constructor; eauto.
Qed.
Lemma Forall2_comp_in {A} (P Q R : A -> A -> Prop) l1 l2 l3 : (forall x y z, In x l1 -> P x y -> Q y z -> R x z) ->
  Forall2 P l1 l2 -> Forall2 Q l2 l3 -> Forall2 R l1 l3.
Proof.
  intros H F. revert l3 H. induction F; intros l3 H0 G; inversion G; subst; constructor; [eapply H0; eauto; left; auto|].
  apply IHF; auto. intros a b c Ha. apply H0. right; auto.
Qed.
Lemma Forall2_weak {A} (P Q : A -> A -> Prop) l1 l2 : (forall x y, P x y -> Q x y) -> Forall2 P l1 l2 -> Forall2 Q l1 l2.
Proof. intros H F. induction F; constructor; auto. Qed.
Lemma Forall2_in_l {A} (P : A -> A -> Prop) l1 l2 x : Forall2 P l1 l2 -> In x l1 -> exists y, In y l2 /\ P x y.
Proof.
  intro F. induction F as [|a b l1 l2 H F IH]; [contradiction|]. intros [->|Hi]; [exists b; simpl; auto|].
  destruct (IH Hi) as (y & A1 & A2). exists y. simpl; auto.
Qed.
Lemma Forall2_in_r {A} (P : A -> A -> Prop) l1 l2 y : Forall2 P l1 l2 -> In y l2 -> exists x, In x l1 /\ P x y.
Proof.
  intro F. induction F as [|a b l1 l2 H F IH]; [contradiction|]. intros [->|Hi]; [exists a; simpl; auto|].
  destruct (IH Hi) as (x & A1 & A2). exists x. simpl; auto.
Qed.

Lemma Forall2_upd (P : lent -> lent -> Prop) es c h l h' l' : NoDup (map le_ref es) -> In (c, h, l) es ->
  P (c, h, l) (c, h', l') -> (forall e, le_ref e <> c -> P e e) -> Forall2 P es (les_upd c h' l' es).
Proof.
  intros ND Hi H1 H2. unfold les_upd.
  assert (G : forall e, In e es -> le_ref e = c -> e = (c, h, l)) by (intros e He Ee; apply (NoDup_map_in le_ref es); auto).
  clear ND Hi. induction es as [|e r IH]; cbn [map]; constructor.
  - destruct (Nat.eqb_spec (le_ref e) c) as [E|E]; [rewrite (G e); auto; left; auto|auto].
  - apply IH. intros; apply G; simpl; auto.
Qed.

Lemma hkeep_refl e : hkeep e e.
Proof. unfold hkeep; auto 10. Qed.
Lemma hkeep_ESH es es' : Forall2 hkeep es es' -> ESH es es'.
Proof. apply Forall2_weak. unfold hkeep. tauto. Qed.

(** ** Protecting reasons *)
Definition isr (s : step) (c : nat) : bool := match s_reason s with RLong c' => Nat.eqb c' c | _ => false end.
Definition isreason (ss : list step) (c : nat) : bool := existsb (fun s => isr s c) ss.

Lemma isreason_spec ss c : isreason ss c = true <-> exists s, In s ss /\ s_reason s = RLong c.
Proof.
  unfold isreason. rewrite existsb_exists. split; intros (s & A & B); exists s; split; auto; unfold isr in *.
  - destruct (s_reason s); try discriminate. apply Nat.eqb_eq in B. subst. auto.
  - rewrite B. apply Nat.eqb_refl.
Qed.

Definition prot_rel (b : bool) (ss : list step) (e e' : lent) : Prop :=
  hkeep e e' /\ lh_used (le_hdr e') = lh_used (le_hdr e) /\
  lh_protected (le_hdr e') = if isreason ss (le_ref e) then b else lh_protected (le_hdr e).

Lemma protect_ok b ss : forall a es, LR a es ->
  (forall s c, In s ss -> s_reason s = RLong c -> exists h l, In (c, h, l) es) ->
  exists a' es', foldM (protect_step b) ss a = Ret a' /\ LR a' es' /\ Forall2 (prot_rel b ss) es es'.
Proof.
  induction ss as [|s ss IH]; intros a es HL HR.
  - exists a, es. split; auto. split; auto. apply Forall2_refl_P. intro e. split; [apply hkeep_refl|]. auto.
  - cbn [foldM]. unfold protect_step at 1.
    assert (Skip : (forall c, isr s c = false) -> exists a' es', foldM (protect_step b) ss a = Ret a' /\ LR a' es' /\ Forall2 (prot_rel b (s :: ss)) es es').
    { intro Hs. destruct (IH a es HL) as (a' & es' & A & B & C); [intros; eapply HR; simpl; eauto|]. exists a', es'. split; auto. split; auto.
      eapply Forall2_weak; [|exact C]. intros e e' (X & Y & Z). split; auto. split; auto. rewrite Z. unfold isreason. cbn [existsb]. rewrite Hs. auto. }
    destruct (s_reason s) as [| | l |c] eqn:Es; cbn [bind]; try (apply Skip; intro; unfold isr; rewrite Es; auto).
    destruct (HR s c (or_introl eq_refl) Es) as (h & l & Hi).
    rewrite (LR_header _ _ HL c h l Hi). cbn [bind].
    pose proof (LR_ok _ _ HL _ _ _ Hi) as Hok.
    destruct (LR_set_header _ _ HL c h l (lh_set_protected h b) Hi) as (a1 & E1 & HL1); [apply lh_ok_set_protected; apply Hok|].
    rewrite E1. cbn [bind].
    pose proof (LR_nodup _ _ HL) as ND.
    assert (F1 : Forall2 (prot_rel b [s]) es (les_upd c (lh_set_protected h b) l es)).
    { apply Forall2_upd with h l; auto.
      - unfold prot_rel, hkeep, le_ref, le_lits, le_hdr; cbn [fst snd]. unfold isreason; cbn [existsb]. unfold isr. rewrite Es, Nat.eqb_refl.
        assert (Hk : lh_ok h) by apply Hok.
        rewrite redundant_set_protected, glue_set_protected, used_set_protected, protected_set_protected by auto. cbn [orb]. auto 10.
      - intros e He. split; [apply hkeep_refl|]. split; auto. unfold isreason; cbn [existsb]. unfold isr. rewrite Es.
        destruct (Nat.eqb_spec c (le_ref e)); [congruence|]. auto. }
    destruct (IH a1 _ HL1) as (a' & es' & A & B & C).
    { intros s' c' Hs' R'. destruct (HR s' c' (or_intror Hs') R') as (h2 & l2 & Hi2).
      destruct (Forall2_in_l _ _ _ _ F1 Hi2) as ([[c3 h3] l3] & I3 & (K1 & _) & _). unfold le_ref in K1; cbn in K1; subst. eauto. }
    exists a', es'. split; auto. split; auto. eapply Forall2_comp; [|exact F1|exact C].
    intros e1 e2 e3 ((K1 & K2 & K3 & K4 & K5) & U1 & P1) ((J1 & J2 & J3 & J4 & J5) & U2 & P2). split; [unfold hkeep; intuition congruence|].
    split; [congruence|]. rewrite P2, P1, K1. unfold isreason; cbn [existsb]. rewrite orb_false_r.
    destruct (isr s (le_ref e1)); cbn [orb]; auto. destruct (existsb _ ss); auto.
Qed.

(** ** Candidates *)
(** The score of a candidate; [None] if the entry is not considered. *)
Definition cand_of (e : lent) : option N :=
  let h := le_hdr e in
  if lh_protected h || negb (lh_redundant h) || (lh_glue h <=? 2)%N then None
  else if (0 <? lh_used h)%N then
    if (lh_glue h <=? 5)%N then None else Some (clause_score (lh_used h - 1) (lh_glue h) (N.of_nat (length (le_lits e))))
  else Some (clause_score (lh_used h) (lh_glue h) (N.of_nat (length (le_lits e)))).
Definition candl (e : lent) : list (N * nat) :=
  if le_live e then match cand_of e with Some s => [(s, le_ref e)] | None => [] end else [].

Definition used_up (e : lent) : N :=
  if le_live e && lh_redundant (le_hdr e) && negb (lh_protected (le_hdr e)) && (2 <? lh_glue (le_hdr e))%N
  then (lh_used (le_hdr e) - 1)%N else lh_used (le_hdr e).
Definition cand_rel (e e' : lent) : Prop :=
  (hkeep e e' /\ lh_protected (le_hdr e') = lh_protected (le_hdr e)) /\ lh_used (le_hdr e') = used_up e.

Lemma candidate_ok a es c h l : LR a es -> In (c, h, l) es -> l <> [] ->
  exists a' h', candidate a c = Ret (a', cand_of (c, h, l)) /\ LR a' (les_upd c h' l es) /\ cand_rel (c, h, l) (c, h', l).
Proof.
  intros HL Hi Hne. apply (le_live_ne c h l) in Hne. unfold candidate. rewrite (LR_len _ _ HL c h l Hi), (LR_header _ _ HL c h l Hi). cbn [bind].
  assert (Hk : lh_ok h) by (apply (LR_ok _ _ HL _ _ _ Hi)).
  assert (Id : LR a (les_upd c h l es)).
  { replace (les_upd c h l es) with es; auto. unfold les_upd. pose proof (LR_nodup _ _ HL) as ND.
    assert (G : forall e, In e es -> le_ref e = c -> e = (c, h, l)) by (intros e He Ee; apply (NoDup_map_in le_ref es); auto).
    clear -G. induction es as [|e r IH]; cbn [map]; auto. f_equal.
    - destruct (Nat.eqb_spec (le_ref e) c); auto. apply G; simpl; auto.
    - apply IH. intros; apply G; simpl; auto. }
  assert (Rf : used_up (c, h, l) = lh_used h -> cand_rel (c, h, l) (c, h, l)) by (intro; split; [split; [apply hkeep_refl|auto]|auto]).
  unfold cand_of, le_hdr, le_lits; cbn [fst snd]. unfold used_up in Rf. rewrite Hne in Rf. unfold le_hdr in Rf; cbn [fst snd andb] in Rf.
  destruct (lh_protected h) eqn:Ep; cbn [orb]; [rewrite andb_false_r in Rf; cbn [andb] in Rf; eauto 6|].
  destruct (lh_redundant h) eqn:Er; cbn [negb orb andb] in *; [|eauto 6].
  destruct (N.leb_spec (lh_glue h) 2) as [Eg|Eg]; destruct (N.ltb_spec 2 (lh_glue h)) as [Eg'|Eg'] in Rf; try lia; [eauto 6|].
  destruct (0 <? lh_used h)%N eqn:Eu.
  - pose proof (lh_used_le h) as Ul. apply N.ltb_lt in Eu.
    destruct (LR_set_header _ _ HL c h l (lh_set_used h (lh_used h - 1)) Hi) as (a1 & E1 & HL1); [apply lh_ok_set_used; auto|].
    rewrite E1. cbn [bind]. rewrite glue_set_used, used_set_used by (auto; lia).
    exists a1, (lh_set_used h (lh_used h - 1)). split; [|split; auto].
    + replace (N.min (lh_used h - 1) 3)%N with (lh_used h - 1)%N by lia. destruct (lh_glue h <=? 5)%N; auto.
    + unfold cand_rel, hkeep, le_ref, le_hdr, le_lits; cbn [fst snd]. rewrite redundant_set_used, glue_set_used, protected_set_used by auto.
      split; [auto 10|]. unfold used_up. rewrite Hne. unfold le_hdr; cbn [fst snd]. rewrite Ep, Er. cbn [andb negb]. rewrite (proj2 (N.ltb_lt 2 _) Eg).
      rewrite used_set_used by (auto; lia). lia.
  - destruct (LR_set_header _ _ HL c h l h Hi Hk) as (a1 & E1 & HL1). rewrite E1. cbn [bind]. exists a1, h. apply N.ltb_ge in Eu. split; auto. split; auto. apply Rf. lia.
Qed.
Lemma Forall2_refl_in {A} (P : A -> A -> Prop) l : (forall x, In x l -> P x x) -> Forall2 P l l.
Proof. induction l; constructor; auto; [apply H; left; auto|apply IHl; intros; apply H; right; auto]. Qed.

Lemma candl_dead d : (forall e, In e d -> le_live e = false) -> flat_map candl d = [].
Proof. induction d as [|e d IH]; simpl; intro H; auto. rewrite IH by auto. unfold candl. rewrite H by auto. auto. Qed.

Lemma les_upd_mid c h l h' l' es1 es2 : NoDup (map le_ref (es1 ++ (c, h, l) :: es2)) ->
  les_upd c h' l' (es1 ++ (c, h, l) :: es2) = es1 ++ (c, h', l') :: es2.
Proof.
  intro ND. rewrite map_app in ND. cbn [map] in ND.
  apply NoDup_remove in ND as [_ ND]. rewrite in_app_iff in ND. unfold les_upd. rewrite map_app. cbn [map].
  unfold le_ref at 2. cbn [fst]. rewrite Nat.eqb_refl.
  assert (G : forall e, ~ In c (map le_ref e) -> map (fun e => if le_ref e =? c then (c, h', l') else e) e = e).
  { clear. induction e as [|x e IH]; simpl; intro N; auto. destruct (Nat.eqb_spec (le_ref x) c); [exfalso; auto|]. f_equal. auto. }
  unfold le_ref at 2 4 in ND. cbn [fst] in ND. rewrite !G; auto.
Qed.

Lemma candidates_ok k : forall fuel a es1 es2 iter cs, length es2 <= k -> k < fuel -> LR a (es1 ++ es2) -> at_iter es1 iter ->
  exists a' es2', candidates_loop fuel a iter cs = Ret (a', cs ++ flat_map candl es2) /\ LR a' (es1 ++ es2') /\ Forall2 cand_rel es2 es2'.
Proof.
  assert (Rf : forall e, le_live e = false -> cand_rel e e).
  { intros e He. split; [split; [apply hkeep_refl|auto]|]. unfold used_up. rewrite He. auto. }
  induction k as [|k IH]; intros fuel a es1 es2 iter cs Hk Hf HL HI; (destruct fuel as [|f]; [lia|]);
    cbn [candidates_loop]; rewrite (next_at _ _ _ _ HL HI); cbn [bind].
  - destruct es2; [|simpl in Hk; lia]. simpl. exists a, []. rewrite app_nil_r. auto.
  - destruct (first_live_l es2) as [c|] eqn:E.
    + destruct (first_live_some _ _ E) as (d & [[c' h] l] & r & -> & Hd & Hlive & Hc). unfold le_ref in Hc; simpl in Hc; subst c'.
      destruct (candidate_ok a _ c h l HL) as (a1 & h1 & E1 & HL1 & C1); [apply in_or_app; right; apply in_elt|apply (le_live_ne c h l); auto|].
      rewrite E1. cbn [bind]. rewrite app_assoc in HL1. rewrite les_upd_mid in HL1 by (rewrite <- app_assoc; apply (LR_nodup _ _ HL)).
      destruct (IH f a1 (es1 ++ d ++ [(c, h1, l)]) r (Some c) (match cand_of (c, h, l) with Some s => cs ++ [(s, c)] | None => cs end)) as (a' & es' & E' & HL' & C').
      * rewrite app_length in Hk. simpl in Hk. lia.
      * lia.
      * rewrite <- !app_assoc in *. exact HL1.
      * exists (es1 ++ d), (c, h1, l). rewrite app_assoc. auto.
      * exists a', (d ++ (c, h1, l) :: es'). split; [|split].
        -- rewrite E'. rewrite flat_map_app, (candl_dead d) by auto. cbn [flat_map app]. unfold candl at 2. rewrite Hlive.
           unfold le_ref; cbn [fst]. destruct (cand_of _); cbn [app]; rewrite <- ?app_assoc; reflexivity.
        -- rewrite <- !app_assoc in *. exact HL'.
        -- apply Forall2_app; [apply Forall2_refl_in; auto|]. constructor; auto.
    + exists a, es2. rewrite (candl_dead es2) by (apply first_live_none; auto). rewrite app_nil_r. split; auto. split; auto.
      apply Forall2_refl_in. intros e He. apply Rf. apply (first_live_none es2); auto.
Qed.

(** ** Deleting *)
Definition kill (D : list nat) (e : lent) : lent :=
  if existsb (Nat.eqb (le_ref e)) D then (le_ref e, le_hdr e, []) else e.

Lemma existsb_eqb c D : existsb (Nat.eqb c) D = true <-> In c D.
Proof.
  rewrite existsb_exists. split.
  - intros (x & A & B). apply Nat.eqb_eq in B. subst; auto.
  - intro H. exists c. split; auto. apply Nat.eqb_refl.
Qed.

Definition del_stats (s : stats) (k : nat) : stats :=
  mkStats (st_propagations s) (st_fixed_vars s)
    (st_binary s) (st_irredundant s) (st_redundant s - k) (st_vars s)
    (st_decisions s) (st_conflicts s) (st_restarts s) (st_reductions s).
Definition del_ctx (cx : ctx) (lls : list (list N)) : ctx :=
  mkCtx (del_stats (cx_stats cx) (length lls))
    (match cx_proof cx with Some st => Some (st ++ map PDelete lls) | None => None end).

Lemma del_ctx_nil cx : del_ctx cx [] = cx.
Proof.
  destruct cx as [s pr]. unfold del_ctx, del_stats; cbn [length cx_stats cx_proof map]. destruct s; cbn. rewrite Nat.sub_0_r.
  destruct pr; rewrite ?app_nil_r; reflexivity.
Qed.

Section Delete.
Variables (n : nat) (F : list (list N)) (b : list (list N)) (ss : list step).

Lemma delete_ok : forall xs p es cx, PI n es p -> p_binary p = b -> t_steps (p_trail p) = ss -> NoDup (map snd xs) ->
  (forall x, In x xs -> exists h l, In (snd x, h, l) es /\ l <> [] /\ lh_redundant h = true) ->
  (forall x, In x xs -> isreason ss (snd x) = false) ->
  st_redundant (cx_stats cx) = length (live true es) ->
  exists a' lls, foldM delete_candidate xs (cx, p_long p) = Ret (del_ctx cx lls, a') /\
    PI n (map (kill (map snd xs)) es) (p_set_long p a') /\
    Forall2 (fun x l => exists h, In (snd x, h, l) es) xs lls /\
    length (live true es) = length (live true (map (kill (map snd xs)) es)) + length lls /\
    (forall us L, DBR F L es b ss us -> exists L', DBR F L' (map (kill (map snd xs)) es) b ss us /\
       length L = length L' + length lls /\ (forall f, (forall c, 3 <= length c -> f c = false) -> filter f L' = filter f L) /\
       forall steps, drat_run F steps L -> drat_run F (steps ++ map Del lls) L').
Proof.
  induction xs as [|[sc c] xs IH]; intros p es cx HP Hb Hs ND HX HR HC.
  - exists (p_long p), []. cbn [map foldM]. assert (Ek : map (kill []) es = es) by (clear; induction es; simpl; f_equal; auto).
    rewrite Ek, del_ctx_nil. split; auto. split; [destruct p; exact HP|]. split; [constructor|]. split; [simpl; lia|].
    intros us L HD. exists L. split; auto. split; [simpl; lia|]. split; auto. intros st Hst. rewrite app_nil_r. auto.
  - cbn [foldM]. destruct (HX (sc, c) (or_introl eq_refl)) as (h & l & Hi & Hl & Hr). cbn [snd] in Hi.
    assert (Hlive : In l (live true es)) by (rewrite <- Hr; eapply in_live; eauto).
    unfold delete_candidate at 1. destruct (Nat.ltb_spec 0 (st_redundant (cx_stats cx))) as [G|G].
    2:{ rewrite HC in G. destruct (live true es); [contradiction|simpl in G; lia]. }
    cbn [snd]. rewrite (LR_lits _ _ (pi_lr _ _ _ _ HP) c h l Hi). cbn [bind].
    destruct (LR_delete _ _ (pi_lr _ _ _ _ HP) c h l Hi Hl) as (a1 & E1 & HL1).
    set (cx1 := del_ctx cx [l]).
    assert (Ecx : match cx_proof (cx_with cx (del_stats (cx_stats cx) 1)) with
       | Some _ => Ret (cx_log (cx_with cx (del_stats (cx_stats cx) 1)) (PDelete l)) | None => Ret (cx_with cx (del_stats (cx_stats cx) 1)) end = Ret cx1).
    { unfold cx1, del_ctx, cx_with, cx_log. cbn [cx_proof cx_stats map length]. destruct (cx_proof cx); reflexivity. }
    unfold del_stats in Ecx. rewrite Ecx. cbn [bind]. rewrite E1. cbn [bind].
    assert (HP1 : PI n (les_upd c h [] es) (p_set_long p a1)).
    { eapply PI_delete; eauto. intros s Hs1 Hs2. specialize (HR (sc, c) (or_introl eq_refl)). cbn [snd] in HR.
      assert (isreason ss c = true) by (apply isreason_spec; exists s; rewrite <- Hs; auto). congruence. }
    pose proof (LR_nodup _ _ (pi_lr _ _ _ _ HP)) as NDe.
    destruct (live_del c h h l es false NDe Hi Hl) as (A & B & V1 & V2 & V3). rewrite Hr in *.
    cbn [map snd] in ND. apply NoDup_cons_iff in ND as [ND1 ND2].
    assert (Hne : forall x, In x xs -> snd x <> c) by (intros x Hx Ex; apply ND1; rewrite <- Ex; apply in_map; auto).
    assert (HX1 : forall x, In x xs -> exists h' l', In (snd x, h', l') (les_upd c h [] es) /\ l' <> [] /\ lh_redundant h' = true /\ In (snd x, h', l') es).
    { intros x Hx. destruct (HX x (or_intror Hx)) as (h' & l' & X1 & X2 & X3). exists h', l'. split; [|auto].
      apply les_upd_in. right. split; auto. unfold le_ref; cbn [fst]. auto. }
    destruct (IH (p_set_long p a1) (les_upd c h [] es) cx1) as (a' & lls & E' & HP' & FX & FC & FD); auto.
    + intros x Hx. destruct (HX1 x Hx) as (h' & l' & X1 & X2 & X3 & _). eauto.
    + intros x Hx. apply HR. simpl; auto.
    + unfold cx1, del_ctx, del_stats. cbn [cx_stats st_redundant length]. rewrite HC, V1, V2, !app_length. simpl. lia.
    + assert (Ek : map (kill (map snd xs)) (les_upd c h [] es) = map (kill (c :: map snd xs)) es).
      { unfold les_upd. rewrite map_map. apply map_ext_in. intros [[c0 h0] l0] He. unfold le_ref; cbn [fst].
        unfold kill at 2. cbn [existsb]. unfold le_ref at 1 2; cbn [fst].
        destruct (Nat.eqb_spec c0 c) as [->|N]; cbn [orb].
        - assert ((c, h0, l0) = (c, h, l)) as Eq by (apply (NoDup_map_in le_ref es); auto). inversion Eq; subst.
          unfold kill. unfold le_ref, le_hdr; cbn [fst snd]. destruct (existsb _ _); auto.
        - reflexivity. }
      cbn [map snd]. rewrite Ek in *. exists a', (l :: lls). split; [|split; [|split; [|split]]].
      * change (p_long (p_set_long p a1)) with a1 in E'. rewrite E'. f_equal. f_equal. unfold cx1, del_ctx, del_stats. cbn [cx_stats cx_proof length map st_propagations st_fixed_vars st_binary st_irredundant st_redundant st_vars st_decisions st_conflicts st_restarts st_reductions].
        replace (st_redundant (cx_stats cx) - 1 - length lls) with (st_redundant (cx_stats cx) - S (length lls)) by lia. destruct (cx_proof cx); [|reflexivity].
        rewrite <- app_assoc. reflexivity.
      * exact HP'.
      * constructor; [exists h; auto|]. clear -FX HX1. induction FX as [|x l0 xs lls (h0 & H0) FX IH]; constructor.
        -- destruct (HX1 x (or_introl eq_refl)) as (h' & l' & X1 & X2 & X3 & X4). apply les_upd_in in H0 as [(Eq & _)|[H0 _]]; [|eauto].
           inversion Eq; subst. apply les_upd_in in X1 as [(Eq1 & _)|[_ X1]]; [inversion Eq1; subst; congruence|].
           unfold le_ref in X1; cbn [fst] in X1. congruence.
        -- apply IH. intros y Hy. apply HX1. simpl; auto.
      * rewrite V1. rewrite V2 in FC. rewrite !app_length in *. cbn [length]. lia.
      * intros us L HD. assert (H3 : 3 <= length l) by (apply (pi_ll _ _ _ _ HP c h l Hi Hl)).
        destruct (DBR_delete F L es b ss us c h h l NDe HD Hi Hl Hr H3) as (L1 & c' & L2 & -> & P & HD1).
        destruct (FD _ _ HD1) as (L' & HD' & Hlen & Hflt & Hrun). exists L'. split; auto.
        split; [rewrite app_length in *; cbn [length]; lia|].
        split; [intros f Hf; rewrite Hflt, !filter_app by auto; cbn [filter]; rewrite (Hf c'); [auto|rewrite <- (Permutation_length P); auto]|].
        intros steps Hst. cbn [map].
        replace (steps ++ Del l :: map Del lls) with ((steps ++ [Del l]) ++ map Del lls) by (rewrite <- app_assoc; reflexivity).
        apply Hrun. eapply dr_del; eauto.
Qed.
End Delete.

(** ** reduce *)
(** A clause reduction may consider: live, redundant, not a reason, glue above
    2, and not (recently used with glue at most 5). *)
Definition eligible (ss : list step) (e : lent) : Prop :=
  le_live e = true /\ lh_redundant (le_hdr e) = true /\ isreason ss (le_ref e) = false /\ (2 < lh_glue (le_hdr e))%N /\
  (lh_used (le_hdr e) = 0 \/ 5 < lh_glue (le_hdr e))%N.
Definition eligibleb (ss : list step) (e : lent) : bool :=
  le_live e && lh_redundant (le_hdr e) && negb (isreason ss (le_ref e)) && (2 <? lh_glue (le_hdr e))%N &&
  ((lh_used (le_hdr e) =? 0)%N || (5 <? lh_glue (le_hdr e))%N).
Lemma eligible_iff ss e : eligibleb ss e = true <-> eligible ss e.
Proof.
  unfold eligibleb, eligible. rewrite !andb_true_iff, orb_true_iff, negb_true_iff, !N.ltb_lt, N.eqb_eq. tauto.
Qed.

Definition red_rel (D : list nat) (e e' : lent) : Prop :=
  le_ref e' = le_ref e /\ lh_redundant (le_hdr e') = lh_redundant (le_hdr e) /\
  lh_search_pos (le_hdr e') = lh_search_pos (le_hdr e) /\ lh_glue (le_hdr e') = lh_glue (le_hdr e) /\
  le_lits e' = if existsb (Nat.eqb (le_ref e)) D then [] else le_lits e.

Record reduced (n : nat) (F : list (list N)) (es : list lent) (p : prop) (cx cx' : ctx) (es' : list lent) (a' : arena)
    (D : list nat) (lls : list (list N)) : Prop := {
  rd_pi : PI n es' (p_set_long p a');
  rd_un : unprot es';
  rd_rel : Forall2 (red_rel D) es es';
  rd_el : Forall2 (fun c l => exists h, In (c, h, l) es /\ eligible (t_steps (p_trail p)) (c, h, l)) D lls;
  rd_nd : NoDup D;
  rd_half : 2 * length D <= length (filter (eligibleb (t_steps (p_trail p))) es);
  rd_cx : cx' = del_ctx (bump_reductions cx) lls;
  rd_len : length (live true es) = length (live true es') + length lls;
  rd_db : forall us L, DBR F L es (p_binary p) (t_steps (p_trail p)) us ->
    exists L', DBR F L' es' (p_binary p) (t_steps (p_trail p)) us /\
      length L = length L' + length lls /\ (forall f, (forall c, 3 <= length c -> f c = false) -> filter f L' = filter f L) /\
      forall steps, drat_run F steps L -> drat_run F (steps ++ map Del lls) L' }.

(** The usage count of a redundant clause above glue 2 that is no reason is
    decremented. *)
Definition used_after (ss : list step) (e : lent) : N :=
  if le_live e && lh_redundant (le_hdr e) && negb (isreason ss (le_ref e)) && (2 <? lh_glue (le_hdr e))%N
  then (lh_used (le_hdr e) - 1)%N else lh_used (le_hdr e).
Definition score_of (e : lent) : N * nat :=
  (clause_score (lh_used (le_hdr e) - 1) (lh_glue (le_hdr e)) (N.of_nat (length (le_lits e))), le_ref e).
Record reduced_more (le : N * nat -> N * nat -> Prop) (es : list lent) (p : prop) (es' : list lent) (D : list nat) : Prop := {
  rm_used : Forall2 (fun e e' => le_ref e' = le_ref e /\ (le_live e = true -> lh_used (le_hdr e') = used_after (t_steps (p_trail p)) e)) es es';
  rm_count : let k := length (filter (eligibleb (t_steps (p_trail p))) es) in length D = k - S (k / 2);
  rm_worst : (forall x y z, le x y -> le y z -> le x z) ->
    forall e e', In e es -> In e' es -> eligible (t_steps (p_trail p)) e -> eligible (t_steps (p_trail p)) e' ->
    ~ In (le_ref e) D -> In (le_ref e') D -> le (score_of e) (score_of e') }.

Lemma cands_len ss : forall es es1, unprot es -> Forall2 (prot_rel true ss) es es1 ->
  length (flat_map candl es1) = length (filter (eligibleb ss) es) /\
  (forall x, In x (flat_map candl es1) -> exists e e1, In e es /\ In e1 es1 /\ prot_rel true ss e e1 /\ snd x = le_ref e /\ eligible ss e /\ Some (fst x) = cand_of e1).
Proof.
  intros es es1 HU H. induction H as [|e e1 r r1 HR HF IH]; [split; [reflexivity|intros x []]|].
  destruct IH as [IH1 IH2]; [intros c h l Hi; exact (HU c h l (or_intror Hi))|]. destruct HR as ((K1 & K2 & K3 & K4 & K5) & U1 & P1).
  assert (El : le_live e1 = le_live e) by (unfold le_live; rewrite K2; auto).
  assert (C : if eligibleb ss e then exists s, candl e1 = [(s, le_ref e)] /\ Some s = cand_of e1 else candl e1 = []).
  { unfold eligibleb, candl, cand_of. rewrite El, K3, K5, U1, P1, K1, K2. destruct (le_live e) eqn:L0; cbn [andb]; [|reflexivity].
    assert (Hp : lh_protected (le_hdr e) = false).
    { destruct e as [[c h] l]. apply HU with c l; [left; auto|]. apply (le_live_ne c h l). auto. }
    rewrite Hp. destruct (isreason ss (le_ref e)); cbn [orb andb negb].
    - rewrite andb_false_r. reflexivity.
    - destruct (lh_redundant (le_hdr e)); cbn [orb andb negb]; [|reflexivity].
      destruct (N.leb_spec (lh_glue (le_hdr e)) 2) as [G|G]; destruct (N.ltb_spec 2 (lh_glue (le_hdr e))) as [G2|G2]; try lia; cbn [andb]; [reflexivity|].
      destruct (N.ltb_spec 0 (lh_used (le_hdr e))) as [V|V]; destruct (N.eqb_spec (lh_used (le_hdr e)) 0) as [V2|V2]; try lia; cbn [orb]; [|eauto].
      destruct (N.leb_spec (lh_glue (le_hdr e)) 5) as [W|W]; destruct (N.ltb_spec 5 (lh_glue (le_hdr e))) as [W2|W2]; try lia; [reflexivity|eauto]. }
  cbn [flat_map filter]. destruct (eligibleb ss e) eqn:Ee.
  - destruct C as (s & C & Cs). rewrite C. cbn [app length]. split; [f_equal; auto|]. intros x [<-|Hx].
    + exists e, e1. cbn [In snd fst]. split; auto. split; auto. split; [unfold prot_rel, hkeep; auto 10|]. split; auto. split; [apply eligible_iff; auto|auto].
    + destruct (IH2 x Hx) as (e' & e1' & X1 & X2 & X3). exists e', e1'. simpl. auto.
  - rewrite C. cbn [app]. split; auto. intros x Hx. destruct (IH2 x Hx) as (e' & e1' & X1 & X2 & X3). exists e', e1'. simpl. auto.
Qed.

Lemma cands_nodup es : NoDup (map le_ref es) -> NoDup (map snd (flat_map candl es)).
Proof.
  intro ND. assert (Sub : forall r c, In c (map snd (flat_map candl r)) -> In c (map le_ref r)).
  { induction r as [|e r IH]; intros c Hc; [auto|]. cbn [flat_map] in Hc. rewrite map_app in Hc. apply in_app_or in Hc as [Hc|Hc]; [|right; auto].
    unfold candl in Hc. destruct (le_live e); [|contradiction]. destruct (cand_of e); [|contradiction]. destruct Hc as [<-|[]]. left; auto. }
  induction es as [|e r IH]; cbn [flat_map]; [constructor|]. cbn [map] in ND. apply NoDup_cons_iff in ND as [N1 N2].
  specialize (IH N2). unfold candl at 1. destruct (le_live e); [|auto]. destruct (cand_of e); [|auto]. cbn [app map snd].
  apply NoDup_cons_iff. split; auto.
Qed.

Lemma isreason_false ss c : isreason ss c = false -> forall s, In s ss -> s_reason s <> RLong c.
Proof. intros H s Hs E. assert (isreason ss c = true) by (apply isreason_spec; eauto). congruence. Qed.

Lemma hkeep_refs es es' : Forall2 hkeep es es' -> map le_ref es' = map le_ref es.
Proof. intro H. induction H as [|e e' r r' (A & _) _ IH]; simpl; congruence. Qed.

Section Reduce.
Variable select : list (N * cref) -> nat -> list (N * cref) * (N * cref) * list (N * cref).
Variable le : N * cref -> N * cref -> Prop.
Hypothesis Hsel : select_ok le select.

Lemma reduce_ok n F es cx se : PI n es (se_prop se) -> unprot es ->
  st_redundant (cx_stats cx) = length (live true es) ->
  exists cx' es' a' D lls,
    reduce select cx se = Ret (cx', mkSearch (p_set_long (se_prop se) a') (se_analysis se) (se_vsids se) (se_phases se)) /\
    reduced n F es (se_prop se) cx cx' es' a' D lls /\ reduced_more le es (se_prop se) es' D.
Proof.
  intros HP HU HC. set (p := se_prop se) in *. set (ss := t_steps (p_trail p)) in *. unfold reduce. fold p.
  assert (HRs : forall es0 p0, PI n es0 p0 -> t_steps (p_trail p0) = ss -> forall s c, In s ss -> s_reason s = RLong c -> exists h l, In (c, h, l) es0).
  { intros es0 p0 H0 E0 s c Hs Hr. rewrite <- E0 in Hs. apply In_nth_error in Hs as [i Hi]. pose proof (pi_ri _ _ _ _ H0 i s Hi) as R. rewrite Hr in R.
    destruct R as (h & r & R & _). eauto. }
  unfold protect_clauses at 1. fold ss.
  destruct (protect_ok true ss (p_long p) es (pi_lr _ _ _ _ HP)) as (a1 & es1 & E1 & HL1 & R1).
  { apply (HRs es p); auto. }
  rewrite E1. cbn [bind].
  destruct (candidates_ok (length es1) (S (length (a_buffer a1))) a1 [] es1 None []) as (a2 & es2 & E2 & HL2 & R2); auto.
  { pose proof (LR_bound _ _ HL1). lia. } { reflexivity. }
  rewrite E2. cbn [bind app] in *.
  destruct (cands_len ss es es1 HU R1) as [CL CI]. set (cs := flat_map candl es1) in *.
  assert (CN : NoDup (map snd cs)) by (apply cands_nodup; apply (LR_nodup _ _ HL1)).
  assert (K1 : Forall2 hkeep es es1) by (eapply Forall2_weak; [|exact R1]; intros x y (A & _); auto).
  assert (K2 : Forall2 hkeep es1 es2) by (eapply Forall2_weak; [|exact R2]; intros x y ((A & _) & _); auto).
  assert (K12 : Forall2 hkeep es es2).
  { eapply Forall2_comp; [|exact K1|exact K2]. unfold hkeep. intuition congruence. }
  assert (P12 : Forall2 (fun e e2 => hkeep e e2 /\ lh_protected (le_hdr e2) = if isreason ss (le_ref e) then true else lh_protected (le_hdr e)) es es2).
  { eapply Forall2_comp; [|exact R1|exact R2]. intros x y z (B1 & _ & A) ((B2 & B) & _). split; [|congruence]. unfold hkeep in *. intuition congruence. }
  assert (HP2 : PI n es2 (p_set_long p a2)) by (eapply PI_headers; eauto; apply hkeep_ESH; auto).
  (* the deleted part *)
  assert (HS : exists hi, NoDup (map snd hi) /\ 2 * length hi <= length cs /\ length hi = length cs - S (length cs / 2) /\
     (forall x, In x hi -> In x cs) /\
     ((forall x y z, le x y -> le y z -> le x z) -> forall x y, In x cs -> ~ In (snd x) (map snd hi) -> In y hi -> le x y) /\
     match cs with [] => Ret (bump_reductions cx, a2) | _ => let '(_, higher) := select cs (Nat.div (length cs) 2) in foldM delete_candidate higher (bump_reductions cx, a2) end
       = foldM delete_candidate hi (bump_reductions cx, a2)).
  { clearbody cs. destruct cs as [|x0 cs0].
    - exists []. split; [constructor|]. split; [simpl; lia|]. split; [reflexivity|]. split; [auto|]. split; [intros _ x y []|auto].
    - remember (x0 :: cs0) as cs eqn:Ecs. assert (Hlen : length cs / 2 < length cs).
      { apply Nat.div_lt; [subst; simpl; lia|lia]. }
      pose proof (Hsel cs (length cs / 2) Hlen) as S. destruct (select cs (length cs / 2)) as [[lo m] hi]. destruct S as (SP & SL & SO1 & SO2).
      pose proof SP as SP0. pose proof CN as CN0.
      exists hi. split; [|split; [|split; [|split; [|split]]]].
      + apply (Permutation_map snd) in SP. apply (Permutation_NoDup SP) in CN. rewrite map_app in CN. cbn [map] in CN.
        apply NoDup_app_iff in CN as (_ & CN & _). apply NoDup_cons_iff in CN. tauto.
      + apply Permutation_length in SP. rewrite app_length in SP. cbn [length] in SP.
        pose proof (Nat.div_mod (length cs) 2 ltac:(lia)). pose proof (Nat.mod_upper_bound (length cs) 2 ltac:(lia)). lia.
      + apply Permutation_length in SP. rewrite app_length in SP. cbn [length] in SP. lia.
      + intros x Hx. eapply Permutation_in; [apply Permutation_sym; exact SP|]. apply in_or_app. right. right. auto.
      + intros Ht x y Hx Nx Hy. apply (Permutation_in _ SP) in Hx. apply in_app_or in Hx as [Hx|[<-|Hx]].
        * eapply Ht; [apply SO1; auto|apply SO2; auto].
        * apply SO2; auto.
        * exfalso. apply Nx. apply in_map. auto.
      + subst cs. reflexivity. }
  destruct HS as (hi & HN & Hhalf & Hcnt & Hin & Hworst & Ehi). rewrite Ehi. clear Ehi.
  assert (HX : forall x, In x hi -> exists h l h2, In (snd x, h, l) es /\ eligible ss (snd x, h, l) /\ In (snd x, h2, l) es2 /\ l <> [] /\ lh_redundant h2 = true).
  { intros x Hx. destruct (CI x (Hin x Hx)) as ([[c h] l] & e1 & I1 & _ & _ & Ex & El & _). unfold le_ref in Ex; cbn [fst] in Ex; subst c.
    destruct (Forall2_in_l _ _ _ _ K12 I1) as ([[c2 h2] l2] & I2 & (A1 & A2 & A3 & _)). unfold le_ref, le_lits, le_hdr in A1, A2, A3. cbn [fst snd] in *. subst c2 l2.
    exists h, l, h2. split; auto. split; auto. split; auto. destruct El as (B1 & B2 & _). split; [apply (le_live_ne (snd x) h l); auto|].
    unfold le_hdr in B2; cbn [fst snd] in B2. congruence. }
  destruct (delete_ok n F (p_binary p) ss hi (p_set_long p a2) es2 (bump_reductions cx) HP2 eq_refl eq_refl HN) as (a3 & lls & E3 & HP3 & FX & FC & FD).
  { intros x Hx. destruct (HX x Hx) as (h & l & h2 & _ & _ & A & B & C). eauto. }
  { intros x Hx. destruct (HX x Hx) as (h & l & h2 & _ & (_ & _ & A & _) & _). auto. }
  { unfold bump_reductions, cx_with. cbn [cx_stats st_redundant]. rewrite HC. symmetry. f_equal. apply live_ESH. apply hkeep_ESH. auto. }
  change (p_long (p_set_long p a2)) with a2 in E3. rewrite E3. cbn [bind]. change (p_set_long (p_set_long p a2) a3) with (p_set_long p a3) in HP3.
  set (es3 := map (kill (map snd hi)) es2) in *.
  unfold protect_clauses. change (t_steps (p_trail p)) with ss.
  destruct (protect_ok false ss a3 es3 (pi_lr _ _ _ _ HP3)) as (a4 & es4 & E4 & HL4 & R4).
  { apply (HRs es3 _ HP3). reflexivity. }
  rewrite E4. cbn [bind].
  assert (K4 : Forall2 hkeep es3 es4) by (eapply Forall2_weak; [|exact R4]; intros x y (A & _); auto).
  assert (K23 : Forall2 (fun e e3 => e3 = kill (map snd hi) e) es2 es3).
  { unfold es3. clear. induction es2; simpl; constructor; auto. }
  exists (del_ctx (bump_reductions cx) lls), es4, a4, (map snd hi), lls. split; [reflexivity|].
  assert (Hlive4 : forall r, live r es4 = live r es3) by (intro r; apply live_ESH, hkeep_ESH; auto).
  split; [constructor|constructor; fold ss].
  - change (p_set_long p a4) with (p_set_long (p_set_long p a3) a4). eapply PI_headers; eauto. apply hkeep_ESH; auto.
  - intros c h l Hi Hl. destruct (Forall2_in_r _ _ _ _ R4 Hi) as ([[c3 h3] l3] & I3 & (A1 & A2 & A3 & A4 & A5) & _ & A6).
    unfold le_lits, le_ref, le_hdr in *. cbn [fst snd] in *. subst c3 l3. rewrite A6. destruct (isreason ss c) eqn:Er; auto.
    destruct (Forall2_in_r _ _ _ _ K23 I3) as ([[c2 h2] l2] & I2 & Ek).
    unfold kill, le_ref, le_hdr in Ek. cbn [fst snd] in Ek. destruct (existsb (Nat.eqb c2) (map snd hi)); inversion Ek; subst; [congruence|].
    destruct (Forall2_in_r _ _ _ _ P12 I2) as ([[c0 h0] l0] & I0 & (C1 & C2 & _) & B0). unfold le_lits, le_ref, le_hdr in *. cbn [fst snd] in *. subst c0 l0.
    rewrite B0, Er. eapply HU; eauto.
  - eapply Forall2_comp; [|exact K12|eapply Forall2_comp; [|exact K23|exact K4]].
    2:{ intros x y z Hxy Hyz. exact (ex_intro (fun y => y = kill (map snd hi) x /\ hkeep y z) y (conj Hxy Hyz)). }
    cbv beta. intros x y z (A1 & A2 & A3 & A4 & A5) (w & -> & (B1 & B2 & B3 & B4 & B5)). unfold red_rel, kill in *.
    rewrite A1 in *. destruct (existsb (Nat.eqb (le_ref x)) (map snd hi)); unfold le_ref, le_hdr, le_lits in *; cbn [fst snd] in *; intuition congruence.
  - assert (G : forall x l, In x hi -> (exists h, In (snd x, h, l) es2) -> exists h, In (snd x, h, l) es /\ eligible ss (snd x, h, l)).
    { intros x l Hx (h & Hi). destruct (HX x Hx) as (h0 & l0 & h2 & X1 & X2 & X3 & _).
      assert (Eq : (snd x, h, l) = (snd x, h2, l0)) by (apply (NoDup_map_in le_ref es2); auto; apply (LR_nodup _ _ HL2)).
      inversion Eq; subst. eauto. }
    clear -FX G. induction FX as [|x l xs lls H FX IH]; constructor; [apply G; simpl; auto|]. apply IH. intros y l' Hy. apply G. simpl; auto.
  - auto.
  - rewrite map_length. rewrite CL in Hhalf. exact Hhalf.
  - auto.
  - rewrite Hlive4. rewrite <- FC. f_equal. symmetry. apply live_ESH, hkeep_ESH. auto.
  - intros us L HD. destruct (FD us L) as (L' & HD' & HS1 & HS2 & HS'); [eapply DBR_live; [|exact HD]; intro r; apply live_ESH, hkeep_ESH; auto|].
    exists L'. split; auto. eapply DBR_live; [|exact HD']. auto.
  - assert (U12 : Forall2 (fun e e2 => le_ref e2 = le_ref e /\ (le_live e = true -> lh_used (le_hdr e2) = used_after ss e)) es es2).
    { eapply Forall2_comp_in; [|exact R1|exact R2]. intros x y z Hx ((A1 & A2 & A3 & A4 & A5) & A6 & A7) (((B1 & _) & _) & B2). split; [congruence|].
      intro Lx. assert (Ly : le_live y = true) by (unfold le_live; rewrite A2; auto).
      rewrite B2. unfold used_up, used_after. rewrite Ly, Lx, A3, A5, A6, A7.
      assert (Hp : lh_protected (le_hdr x) = false).
      { destruct x as [[c h] l]. eapply HU; eauto. apply (le_live_ne c h l). auto. }
      rewrite Hp. destruct (isreason ss (le_ref x)); reflexivity. }
    eapply Forall2_comp; [|exact U12|eapply Forall2_comp; [|exact K23|exact R4]].
    2:{ intros x y z Hxy Hyz. exact (ex_intro (fun y => y = kill (map snd hi) x /\ prot_rel false ss y z) y (conj Hxy Hyz)). }
    cbv beta. intros x y z (A1 & A2) (w & -> & ((B1 & _) & B2 & _)). unfold kill in *.
    destruct (existsb _ _); unfold le_ref, le_hdr in *; cbn [fst snd] in *; (split; [congruence|intro G; rewrite B2; auto]).
  - cbv zeta. rewrite map_length, Hcnt, CL. reflexivity.
  - intros Ht e e' He He' El El' Nd Id.
    assert (G : forall e, In e es -> eligible ss e -> In (score_of e) cs).
    { clear -R1 HU. intros e He El. destruct (Forall2_in_l _ _ _ _ R1 He) as (e1 & I1 & (A1 & A2 & A3 & A4 & A5) & A6 & A7).
      unfold cs. apply in_flat_map. exists e1. split; auto. destruct El as (L1 & L2 & L3 & L4 & L5).
      unfold candl, cand_of, score_of. assert (Ly : le_live e1 = true) by (unfold le_live; rewrite A2; auto). rewrite Ly, A1, A2, A3, A5, A6, A7, L2, L3.
      assert (Hp : lh_protected (le_hdr e) = false).
      { destruct e as [[c h] l]. eapply HU; eauto. apply (le_live_ne c h l). auto. }
      rewrite Hp. cbn [orb negb]. destruct (N.leb_spec (lh_glue (le_hdr e)) 2) as [E|E]; [lia|].
      destruct (N.ltb_spec 0 (lh_used (le_hdr e))) as [V|V].
      - destruct (N.leb_spec (lh_glue (le_hdr e)) 5) as [W|W]; [lia|]. left; auto.
      - left. f_equal. f_equal. lia. }
    apply Hworst; auto.
    apply in_map_iff in Id as (y & Ey & Hy).
    replace (score_of e') with y; auto. pose proof (G e' He' El') as G'. apply (NoDup_map_in snd cs); auto.
Qed.
End Reduce.
