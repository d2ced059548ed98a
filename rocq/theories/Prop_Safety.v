(** C76, C77: the clause arena under arbitrary safe calls. *)
From Coq Require Import NArith List Bool Arith Lia ZifyN ZifyNat ZifyBool.
From Verif Require Import Model_Base Model_Lit Model_Header Model_Arena Spec
  Drivers_Arena Proof_Base Proof_Header Proof_Arena Proof_ArenaGc Proof_ArenaHist Prop_Arena.
Import ListNotations.

Lemma AR_cases HL gx a es c len : AR HL gx a es -> clause_len HL a c = Ret len ->
  exists h l, In (c, h, l) es /\ length l = len.
Proof.
  intros H E. destruct (in_dec Nat.eq_dec c (map e_ref es)) as [Hi|Hn].
  - apply in_map_iff in Hi as ([[c' h] l] & Ec & Hi). unfold e_ref in Ec. simpl in Ec. subst c'. exists h, l. split; auto.
    rewrite (AR_len HL _ _ _ _ _ _ H Hi) in E. congruence.
  - destruct (AR_invalid HL _ _ _ c H) as (p & E'); [|congruence]. intros e He Ec. apply Hn. subst. apply in_map. auto.
Qed.

(** Collection at any size of the buffer: the recorded offsets have 32 bits. *)
Lemma AR_collect_any HL gx a es : AR HL gx a es ->
  exists bs a' es', Brep HL a bs /\ es = ents HL 0 bs /\
    collect_garbage HL a = Ret (a', map tgap (gaps_of 0 0 (lives HL 0 bs) (length (a_buffer a)))) /\ AR HL true a' es'.
Proof.
  intros (bs & HB & -> & _ & HF). pose proof (proj2 HB) as F. exists bs. destruct a as [w g]. pose proof (proj1 HB) as E0. cbn [a_buffer] in *. subst w.
  unfold collect_garbage. rewrite (next_none HL _ bs HB). cbn [bind a_buffer].
  destruct (gc_loop_ok HL bs F (S (length (buf bs))) [] [] g 0 []) as (J' & E & EL).
  { pose proof (live_count HL bs F). lia. }
  { simpl; lia. } { simpl; lia. }
  cbn [app length Nat.add] in E, EL. rewrite E. cbn [bind a_buffer app]. rewrite EL.
  rewrite firstn_app, Nat.sub_diag, firstn_all. cbn [firstn]. rewrite app_nil_r.
  exists (mkArena (buf (compact bs)) 0), (ents HL 0 (compact bs)). split; [exact HB|]. split; [reflexivity|]. split.
  - assert (Es : length (buf (compact bs)) = sizes (lives HL 0 bs)).
    { clear - F. generalize 0 as o. induction F as [|b bs Hb F IH]; intro o; auto. unfold compact in *. cbn [filter lives].
      destruct (b_live b) eqn:Elv; cbn [app]; auto. cbn [map sizes]. rewrite buf_cons, app_length, IH with (o := o + bsize HL b).
      rewrite (bwords_len HL) by (apply bok_compact; auto). unfold Proof_Arena.bsize. simpl. lia. }
    unfold gaps_of. rewrite <- Es. destruct (gapl 0 0 (lives HL 0 bs)) as [G e]. cbn [fst snd Nat.add].
    destruct (negb (length (buf bs) =? e)); [rewrite map_app|]; reflexivity.
  - exists (compact bs). split; [split; auto; apply compact_ok; auto|]. split; [reflexivity|]. split.
    + intros _. cbn [a_garbage]. symmetry. apply compact_waste.
    + apply (fit_compact HL bs F 0 0); auto.
Qed.

Lemma asafe_inv HL hook a : hook_ok HL hook -> asafe HL hook a -> exists es, AR HL false a es.
Proof.
  intros Hk H. induction H.
  - exists []. apply AR_empty.
  - destruct IHasafe as (es & IH). destruct o as [c|].
    + unfold arena_add_clause in H3. destruct (Nat.eqb_spec (length l) 0); [discriminate|]. cbn [negb] in H3.
      destruct ((LITIDX_MAX <? N.of_nat (length (a_buffer a)))%N || (HEADER_MASK <? N.of_nat (length l))%N) eqn:E; [discriminate|].
      pose proof E as E'. apply orb_false_iff in E' as [E1 E2]. apply N.ltb_ge in E1, E2.
      destruct (AR_add HL _ a es h l IH H0 H1 H2) as (a2 & E3 & HA); auto.
      { destruct l; simpl in *; congruence. }
      unfold arena_add_clause in E3. destruct (Nat.eqb_spec (length l) 0); [contradiction|]. cbn [negb] in E3.
      rewrite E in E3. inv H3. inv E3. eauto.
    + apply (AR_add_full HL _ _ _ _ _ _ IH) in H3. subst. eauto.
  - destruct IHasafe as (es & IH). pose proof H2 as E. unfold arena_set_header in E. destruct (clause_len HL a c) as [len| |] eqn:El; try discriminate.
    destruct (AR_cases _ _ _ _ _ _ IH El) as (h0 & l & Hi & _).
    destruct (AR_set_header HL _ _ _ _ _ _ h IH Hi H0 H1) as (a2 & E2 & HA). exists (es_upd c h l es). congruence.
  - destruct IHasafe as (es & IH). pose proof H1 as E. unfold arena_set_lits in E. destruct (clause_len HL a c) as [len| |] eqn:El; try discriminate.
    cbn [bind] in E. destruct (Nat.eqb_spec (length l) len); [|discriminate].
    destruct (AR_cases _ _ _ _ _ _ IH El) as (h0 & l0 & Hi & E0).
    destruct (AR_set_lits HL _ _ _ _ _ _ l IH Hi) as (a2 & E2 & HA); [congruence|auto|]. exists (es_upd c h0 l es). congruence.
  - destruct IHasafe as (es & IH). pose proof H0 as E. unfold arena_shrink_clause in E. destruct (Nat.eqb_spec n 0); [discriminate|].
    cbn [negb] in E. destruct (clause_len HL a c) as [len| |] eqn:El; try discriminate.
    cbn [bind] in E. destruct (Nat.leb_spec n len); [|discriminate].
    destruct (AR_cases _ _ _ _ _ _ IH El) as (h0 & l0 & Hi & E0).
    destruct (AR_shrink HL _ _ _ _ _ _ _ n Hk IH Hi) as (a2 & E2 & HA); [lia|]. rewrite H0 in E2. inv E2. eauto.
  - destruct IHasafe as (es & IH). pose proof H0 as E. unfold arena_delete_clause in E. destruct (clause_len HL a c) as [len| |] eqn:El; try discriminate.
    destruct (AR_cases _ _ _ _ _ _ IH El) as (h0 & l0 & Hi & E0). destruct l0 as [|x r].
    + destruct (AR_delete_dead HL _ _ _ _ IH Hi) as (a2 & E2 & HA). rewrite H0 in E2. inv E2. eauto.
    + destruct (AR_delete HL _ _ _ _ _ _ IH Hi) as (a2 & E2 & HA); [discriminate|]. rewrite H0 in E2. inv E2. eauto.
  - destruct IHasafe as (es & IH). destruct (AR_collect_any HL _ _ _ IH) as (bs & a2 & es2 & _ & _ & E & HA).
    rewrite H0 in E. inv E. exists es2. apply (AR_weaken HL true). auto.
Qed.

(** A word that is no length word may be read as a literal or a header word. *)
Definition range_clear (a : arena) (pos n : nat) : Prop :=
  pos + n <= length (a_buffer a) /\ Forall clear (firstn n (skipn pos (a_buffer a))).

Lemma first_live_in es r : first_live_e es = Some r -> exists e, In e es /\ e_ref e = r /\ e_live e = true.
Proof.
  induction es as [|e es IH]; simpl; [discriminate|]. destruct (e_live e) eqn:E; intro H.
  - inv H. exists e. auto.
  - destruct (IH H) as (e' & A & B). eauto.
Qed.

Lemma AR_first HL gx a es es' r : AR HL gx a es -> incl es' es -> first_live_e es' = Some r -> exists len, clause_len HL a r = Ret len /\ 0 < len.
Proof.
  intros H Hi E. apply first_live_in in E as ([[c h] l] & A & B & C). unfold e_ref, e_live, e_lits in *. simpl in *. subst.
  exists (length l). split; [exact (AR_len HL _ _ _ _ _ _ H (Hi _ A))|]. destruct l; [discriminate|simpl; lia].
Qed.

(** Whatever safe calls were made: for every reference [c] that passes the check
    in [clause_len], what the unchecked accesses touch lies within the buffer: the
    header, the length word and the literals.  Header and literals are valid
    values.  Iterating and collecting stay within the buffer and come to an end,
    and iterating yields references that pass the check. *)
Theorem arena_memory_safe HL hook a : hook_ok HL hook -> asafe HL hook a ->
  (forall c len, clause_len HL a c = Ret len ->
     c + HL < length (a_buffer a) /\ range_clear a c HL /\ range_clear a (c + HL + 1) len /\
     exists o, next_clause HL a (Some c) = Ret o /\ forall r, o = Some r -> exists n, clause_len HL a r = Ret n /\ 0 < n) /\
  (exists o, next_clause HL a None = Ret o /\ forall r, o = Some r -> exists n, clause_len HL a r = Ret n /\ 0 < n) /\
  (exists a' gaps, collect_garbage HL a = Ret (a', gaps)).
Proof.
  intros Hk H. destruct (asafe_inv _ _ _ Hk H) as (es & HA). split; [|split].
  - intros c len El. destruct (AR_cases _ _ _ _ _ _ HA El) as (h & l & Hi & <-).
    pose proof (AR_words HL _ _ _ _ _ _ HA Hi) as HW. pose proof (AR_header HL _ _ _ _ _ _ HA Hi) as EH.
    pose proof (AR_lits HL _ _ _ _ _ _ HA Hi) as EL. unfold arena_header, arena_lits in EH, EL. rewrite El in EH, EL. cbn [bind] in EH, EL.
    unfold read_words in EH, EL.
    assert (RI : forall (x y : list N), Ret x = Ret y -> x = y) by congruence.
    destruct (Nat.leb_spec (c + HL) (length (a_buffer a))); [|discriminate].
    destruct (Nat.leb_spec (c + HL + 1 + length l) (length (a_buffer a))); [|discriminate].
    apply RI in EH, EL. destruct HW as (_ & C1 & C2 & _). split; [lia|]. split; [split; [auto|congruence]|]. split; [split; [auto|congruence]|].
    apply in_split in Hi as (es1 & es2 & ->). pose proof (AR_next_some HL _ _ _ _ _ HA) as E. unfold e_ref in E. cbn [fst] in E.
    eexists. split; [exact E|]. intros r Er. eapply (AR_first HL _ _ _ es2); eauto. intros x Hx. apply in_or_app. right. right. auto.
  - eexists. split; [exact (AR_next_none HL _ _ _ HA)|]. intros r Er. eapply (AR_first HL _ _ _ es); eauto. apply incl_refl.
  - destruct (AR_collect_any HL _ _ _ HA) as (bs & a' & es' & _ & _ & E & _). eauto.
Qed.

(** [ClauseRefGcMap::update] accepts any reference. *)
Lemma gaps_shift exp wo lives total g : chain exp lives total -> wo <= exp ->
  In g (gaps_of exp wo lives total) -> g_shift g <= g_end g.
Proof.
  revert exp wo; induction lives as [|[c s] r IH]; intros exp wo H Hw Hin.
  - rewrite gaps_of_nil in Hin. destruct (negb (total =? exp)); [|contradiction]. destruct Hin as [<-|[]]. simpl. lia.
  - rewrite gaps_of_cons in Hin. destruct H as (H1 & H2 & H3). apply in_app_iff in Hin as [Hin|Hin].
    + destruct (negb (c =? exp)); [|contradiction]. destruct Hin as [<-|[]]. simpl. lia.
    + apply IH in Hin; auto. lia.
Qed.

Lemma gaps_end exp wo lives total g : chain exp lives total -> In g (gaps_of exp wo lives total) -> g_end g <= total.
Proof.
  revert exp wo; induction lives as [|[c s] r IH]; intros exp wo H Hin.
  - rewrite gaps_of_nil in Hin. destruct (negb (total =? exp)); [|contradiction]. destruct Hin as [<-|[]]. simpl. lia.
  - rewrite gaps_of_cons in Hin. destruct H as (H1 & H2 & H3). apply in_app_iff in Hin as [Hin|Hin]; [|eapply IH; eauto].
    destruct (negb (c =? exp)); [|contradiction]. destruct Hin as [<-|[]]. simpl. apply chain_le in H3. lia.
Qed.

Lemma gc_find_in gaps c : forall prev g, gc_find gaps c prev = Some g -> prev = Some g \/ In g gaps.
Proof.
  induction gaps as [|x r IH]; intros prev g E; simpl in *; auto. destruct (g_start x <=? c); auto.
  apply IH in E as [E|E]; auto. inv E. auto.
Qed.

(** Partial: for buffers of less than 2^32 words. *)
Theorem gc_map_total_partial HL hook a a' gaps c : hook_ok HL hook -> asafe HL hook a ->
  (N.of_nat (length (a_buffer a)) < 2 ^ 32)%N ->
  collect_garbage HL a = Ret (a', gaps) -> exists o, gc_update gaps c = Ret o.
Proof.
  intros Hk H Hsz E. destruct (asafe_inv _ _ _ Hk H) as (es & HA).
  destruct (AR_collect_any HL _ _ _ HA) as (bs & a2 & es' & HB & _ & E2 & _). rewrite E in E2. inv E2.
  unfold gc_update. destruct (gc_find _ c None) as [g|] eqn:G; [|eauto].
  apply gc_find_in in G as [G|G]; [discriminate|]. apply in_map_iff in G as (g0 & <- & Hi).
  pose proof (lives_chain HL 0 bs 0 (proj2 HB) (le_n 0)) as CH. rewrite <- (proj1 HB) in CH. cbn [Nat.add] in CH.
  pose proof (gaps_shift _ _ _ _ _ CH (le_n 0) Hi) as Hs. cbn [tgap g_end g_shift].
  pose proof (gaps_end _ _ _ _ _ CH Hi) as He.
  change (2 ^ 32)%N with 4294967296%N in Hsz. rewrite !trunc32_id by lia.
  destruct (Nat.ltb_spec c (g_end g0)); [eauto|]. destruct (Nat.leb_spec (g_shift g0) c); [eauto|lia].
Qed.

(** The gaps of a map are in increasing order, so the binary search in [update]
    finds the right one, and the [debug_assert] on the one it finds holds. *)
Fixpoint gaps_sorted (lo : nat) (gs : list gap) : Prop :=
  match gs with [] => True | g :: r => lo <= g_start g /\ g_start g < g_end g /\ gaps_sorted (g_end g) r end.
Lemma gaps_of_sorted exp wo lv total : chain exp lv total -> gaps_sorted exp (gaps_of exp wo lv total).
Proof.
  assert (W : forall gs lo lo', gaps_sorted lo gs -> lo' <= lo -> gaps_sorted lo' gs) by (intros [|g r] lo lo' H Hl; cbn in *; [auto|intuition lia]).
  revert exp wo. induction lv as [|[c s] r IH]; intros exp wo H.
  - cbn [chain] in H. rewrite gaps_of_nil. destruct (Nat.eqb_spec total exp); cbn [negb]; [exact I|]. cbn. lia.
  - destruct H as (H1 & H2 & H3). rewrite gaps_of_cons. specialize (IH _ (wo + s) H3). destruct (Nat.eqb_spec c exp) as [->|]; cbn [negb app].
    + eapply W; [exact IH|lia].
    + cbn [gaps_sorted g_start g_end]. split; [lia|]. split; [lia|]. eapply W; [exact IH|lia].
Qed.
Lemma gaps_sorted_nth gs : forall lo i j g g', gaps_sorted lo gs -> i < j -> nth_error gs i = Some g -> nth_error gs j = Some g' ->
  lo <= g_start g /\ g_start g < g_start g'.
Proof.
  assert (L : forall gs lo i g, gaps_sorted lo gs -> nth_error gs i = Some g -> lo <= g_start g).
  { intro l. induction l as [|x l IH]; intros lo [|i] g H E; cbn in *; try discriminate.
    - inv E. tauto. - destruct H as (H1 & H2 & H3). apply (IH _ _ _ H3) in E. lia. }
  induction gs as [|x l IH]; intros lo [|i] [|j] g g' H Hij E E'; try lia; try discriminate; cbn [nth_error] in *.
  - inv E. destruct H as (H1 & H2 & H3). apply (L _ _ _ _ H3) in E'. lia.
  - destruct H as (H1 & H2 & H3). destruct (IH (g_end x) i j g g' H3) as [A B]; auto; try lia.
Qed.
(** The partition point is unique. *)
Lemma gc_find_at gs c : forall k prev, k <= length gs ->
  (forall i g, i < k -> nth_error gs i = Some g -> g_start g <= c) -> (forall g, nth_error gs k = Some g -> c < g_start g) ->
  gc_find gs c prev = match k with O => prev | S j => nth_error gs j end.
Proof.
  induction gs as [|x r IH]; intros k prev Hk Lo Hi.
  - destruct k; [reflexivity|simpl in Hk; lia].
  - cbn [gc_find]. destruct k as [|k].
    + specialize (Hi x eq_refl). destruct (Nat.leb_spec (g_start x) c); [lia|reflexivity].
    + specialize (Lo 0 x ltac:(lia) eq_refl) as L0. destruct (Nat.leb_spec (g_start x) c); [|lia].
      rewrite (IH k (Some x)); [destruct k; reflexivity|simpl in Hk; lia| |].
      * intros i g Hik E. apply (Lo (S i) g); [lia|exact E].
      * intros g E. apply Hi. exact E.
Qed.
Lemma gc_search_ok gs c lo0 : gaps_sorted lo0 gs -> forall fuel lo hi, hi - lo < fuel -> lo <= hi -> hi <= length gs ->
  (forall i g, i < lo -> nth_error gs i = Some g -> g_start g <= c) -> (forall i g, hi <= i -> nth_error gs i = Some g -> c < g_start g) ->
  exists k, gc_search fuel gs c lo (hi - lo) hi = Ret k /\ k <= length gs /\
    (forall i g, i < k -> nth_error gs i = Some g -> g_start g <= c) /\ (forall i g, k <= i -> nth_error gs i = Some g -> c < g_start g).
Proof.
  intro SO. induction fuel as [|f IH]; intros lo hi Hf Hl Hh A B; [lia|]. cbn [gc_search].
  destruct (Nat.ltb_spec lo hi) as [G|G]; [|exists lo; repeat split; auto; [lia|intros i g Hi; apply B; lia]].
  pose proof (Nat.div_lt (hi - lo) 2 ltac:(lia) ltac:(lia)) as D.
  unfold vget. destruct (nth_error gs (lo + (hi - lo) / 2)) as [g|] eqn:E; [|apply nth_error_None in E; lia]. cbn [bind].
  set (mid := lo + (hi - lo) / 2) in *. destruct (Nat.ltb_spec c (g_start g)) as [C|C].
  - apply IH; try lia; auto. intros i x Hi Ex. destruct (Nat.eq_dec i mid) as [->|]; [congruence|].
    destruct (gaps_sorted_nth _ _ mid i _ _ SO ltac:(lia) E Ex). lia.
  - apply IH; try lia; auto. intros i x Hi Ex. destruct (Nat.eq_dec i mid) as [->|]; [congruence|].
    destruct (gaps_sorted_nth _ _ i mid _ _ SO ltac:(lia) Ex E). lia.
Qed.

Theorem gc_map_search_partial HL hook a a' gaps c : hook_ok HL hook -> asafe HL hook a ->
  (N.of_nat (length (a_buffer a)) < 2 ^ 32)%N ->
  collect_garbage HL a = Ret (a', gaps) -> gc_update_search gaps c = gc_update gaps c.
Proof.
  intros Hk H Hsz E. destruct (asafe_inv _ _ _ Hk H) as (es & HA).
  destruct (AR_collect_any HL _ _ _ HA) as (bs & a2 & es' & HB & _ & E2 & _). rewrite E in E2. inv E2.
  pose proof (lives_chain HL 0 bs 0 (proj2 HB) (le_n 0)) as CH. rewrite <- (proj1 HB) in CH. cbn [Nat.add] in CH.
  change (2 ^ 32)%N with 4294967296%N in Hsz.
  pose proof (gaps_of_sorted 0 0 _ _ CH) as SO.
  match goal with |- gc_update_search (map tgap ?G) c = _ => assert (EG : map tgap G = G) end.
  { rewrite <- (map_id (gaps_of _ _ _ _)) at 2. apply map_ext_in. intros g Hg.
    pose proof (gaps_shift _ _ _ _ _ CH (le_n 0) Hg) as Hs. pose proof (gaps_end _ _ _ _ _ CH Hg) as He.
    assert (Hst : g_start g < g_end g).
    { clear - SO Hg. revert SO Hg. generalize 0 at 1. generalize (gaps_of 0 0 (lives HL 0 bs) (length (a_buffer a))). intro l.
      induction l as [|x l IH]; intros lo SO Hg; [destruct Hg|]. destruct SO as (_ & S1 & SO). destruct Hg as [->|Hg]; eauto. }
    unfold tgap. rewrite !trunc32_id by lia. destruct g; reflexivity. }
  rewrite EG. match type of SO with gaps_sorted _ ?G => set (gs := G) in * end.
  destruct (gc_search_ok gs c 0 SO (S (length gs)) 0 (length gs)) as (k & Ek & Kl & A & B); try lia.
  { intros i g Hi Ex. apply nth_error_None in Hi. congruence. }
  unfold gc_update_search, gc_update. rewrite Nat.sub_0_r in Ek. rewrite Ek. cbn [bind].
  rewrite (gc_find_at gs c k None Kl A) by (intros g; apply B; lia).
  destruct k as [|k]; [reflexivity|]. destruct (nth_error gs k) as [g|] eqn:Eg; [|reflexivity].
  specialize (A k g ltac:(lia) Eg). destruct (Nat.leb_spec (g_start g) c); [reflexivity|lia].
Qed.

Lemma lives_of_ents HL bs : forall o, lives HL o bs = map (fun e => (e_ref e, HL + 1 + length (e_lits e))) (filter e_live (ents HL o bs)).
Proof.
  induction bs as [|b bs IH]; intro o; [reflexivity|]. cbn [lives ents filter]. rewrite IH.
  change (e_live (o, b_hdr b, b_lits b)) with (b_live b). destruct (b_live b); reflexivity.
Qed.

Lemma gc_overflow l1 l2 : N.of_nat (length l1) = 2147483647%N -> N.of_nat (length l2) = 2147483646%N -> Forall clear l1 -> Forall clear l2 ->
  exists a c a' gaps c', asafe 0 (fun h _ _ => h) a /\ clause_len 0 a c = Ret 0 /\
    collect_garbage 0 a = Ret (a', gaps) /\ gc_update gaps c = Ret (Some c').
Proof.
  intros L1 L2 C1 C2. set (hook := fun (h : list N) (_ _ : nat) => h).
  assert (ADD : forall a es l, asafe 0 hook a -> AR 0 false a es -> Forall clear l -> l <> [] ->
    (N.of_nat (length (a_buffer a)) <= LITIDX_MAX)%N -> (N.of_nat (length l) <= HEADER_MASK)%N ->
    exists a', asafe 0 hook a' /\ AR 0 false a' (es ++ [(length (a_buffer a), [], l)]) /\ length (a_buffer a') = length (a_buffer a) + 1 + length l).
  { intros a es l HS HA Cl Hl B1 B2. destruct (AR_add 0 _ a es [] l HA eq_refl (Forall_nil _) Cl Hl) as (a' & E & HA'); auto.
    exists a'. split; [eapply (as_add 0 hook a [] l); eauto|]. split; auto.
    unfold arena_add_clause in E. destruct (negb _); [|discriminate]. destruct (_ || _); [discriminate|]. inv E. cbn [a_buffer].
    rewrite !app_length. simpl. lia. }
  destruct (ADD arena_empty [] l1 (as_new 0 hook) (AR_empty 0 false) C1) as (a1 & S1 & A1 & B1).
  { intros ->. simpl in L1. lia. } { unfold LITIDX_MAX. simpl. lia. } { unfold HEADER_MASK. lia. }
  cbn [arena_empty a_buffer length app Nat.add] in B1, A1.
  destruct (ADD a1 _ l2 S1 A1 C2) as (a2 & S2 & A2 & B2).
  { intros ->. simpl in L2. lia. } { unfold LITIDX_MAX. lia. } { unfold HEADER_MASK. lia. }
  destruct (ADD a2 _ [0; 0]%N S2 A2) as (a3 & S3 & A3 & B3).
  { repeat constructor; unfold clear; lia. } { discriminate. } { unfold LITIDX_MAX. lia. } { unfold HEADER_MASK. simpl. lia. }
  clear ADD. cbn [length] in B3. set (n1 := length (a_buffer a1)) in *. set (n2 := length (a_buffer a2)) in *. cbn [app] in *.
  destruct (AR_delete 0 _ _ _ n2 [] [0; 0]%N A3) as (a4 & D & A4); [simpl; auto|discriminate|].
  assert (B4 : length (a_buffer a4) = length (a_buffer a3)).
  { unfold arena_delete_clause in D. destruct (clause_len 0 a3 n2) as [len| |]; try discriminate. cbn [bind] in D.
    destruct (0 <? len); inv D; cbn [a_buffer]; auto. exact (write_words_length [_; _] _ _). }
  assert (S4 : asafe 0 hook a4) by (eapply as_delete; eauto).
  assert (Hn : n1 <> n2 /\ 0 <> n2 /\ 0 <> n1) by lia.
  match type of A4 with AR _ _ _ ?E => assert (E4 : E = [(0, [], l1); (n1, [], l2); (n2, [], [])]) end.
  { unfold es_upd. cbn [map e_ref fst]. destruct (Nat.eqb_spec 0 n2); [lia|]. destruct (Nat.eqb_spec n1 n2); [lia|]. rewrite Nat.eqb_refl. reflexivity. }
  rewrite E4 in A4. destruct (AR_collect_any 0 _ _ _ A4) as (bs & a5 & es5 & HB & EE & E & _).
  exists a4, n2, a5. eexists. exists (n2 - 3). split; [exact S4|]. split; [apply (AR_len 0 _ _ _ n2 [] [] A4); simpl; auto|].
  split; [exact E|]. rewrite lives_of_ents, <- EE.
  assert (V1 : e_live (0, [], l1) = true) by (destruct l1; [simpl in L1; lia|reflexivity]).
  assert (V2 : e_live (n1, [], l2) = true) by (destruct l2; [simpl in L2; lia|reflexivity]).
  cbn [filter]. rewrite V1, V2. cbn [e_live e_lits snd filter map e_ref fst].
  rewrite !gaps_of_cons, gaps_of_nil. rewrite Nat.eqb_refl. cbn [negb app].
  destruct (Nat.eqb_spec n1 (0 + (0 + 1 + length l1))); [|lia]. cbn [negb app].
  destruct (Nat.eqb_spec (length (a_buffer a4)) (n1 + (0 + 1 + length l2))); [lia|]. cbn [negb app map].
  unfold tgap. cbn [g_start g_end g_shift].
  assert (T : forall k m, N.of_nat k = (4294967296 + N.of_nat m)%N -> (m < 100) -> trunc32 k = m).
  { intros k m Ek Hm. unfold trunc32, to_u32. rewrite Ek. replace (4294967296 + N.of_nat m)%N with (N.of_nat m + 1 * 4294967296)%N by lia.
    rewrite N.mod_add by lia. rewrite N.mod_small by lia. lia. }
  rewrite (trunc32_id (n1 + _)) by lia. rewrite (T (length (a_buffer a4)) 2) by lia. rewrite trunc32_id by lia.
  unfold gc_update. cbn [gc_find g_start]. destruct (Nat.leb_spec (n1 + (0 + 1 + length l2)) n2); [|lia].
  cbn [g_end g_shift]. destruct (Nat.ltb_spec n2 2); [lia|].
  match goal with |- (if ?b then _ else _) = _ => destruct b eqn:Eb end; [do 2 f_equal; lia|]. apply Nat.leb_gt in Eb. lia.
Qed.

(** Beyond 2^32 words the map is wrong: the buffer may grow to one clause past
    that size, and the offset of its end does not fit.  Here the deleted last
    clause is said to have moved. *)
Theorem gc_map_overflow_refuted : exists a c a' gaps c',
  asafe 0 (fun h _ _ => h) a /\ clause_len 0 a c = Ret 0 /\
  collect_garbage 0 a = Ret (a', gaps) /\ gc_update gaps c = Ret (Some c').
Proof.
  assert (R : forall k, exists l, N.of_nat (length l) = k /\ Forall clear l).
  { intro k. exists (repeat 0%N (N.to_nat k)). rewrite repeat_length, N2Nat.id. split; auto.
    apply Forall_forall. intros x Hx. apply repeat_spec in Hx. subst. unfold clear. lia. }
  destruct (R 2147483647%N) as (l1 & L1 & C1). destruct (R 2147483646%N) as (l2 & L2 & C2). exact (gc_overflow l1 l2 L1 L2 C1 C2).
Qed.

(** Stale references: three clauses, one shrunk, one deleted twice, a collection,
    and then calls with references from before it.  Reference 5 is now in the
    middle of a clause, reference 0 is another clause than before. *)
Example arena_memory_safe_example : exists a,
  asafe 1 (fun h _ _ => h) a /\ clause_len 1 a 0 = Ret 2 /\ arena_lits 1 a 0 = Ret [9; 8]%N /\
  clause_len 1 a 5 = Panic PInvalidRef /\ clause_len 1 a 1000 = Panic PBounds /\
  a_buffer a = [7; 2147483650; 9; 8; 5; 2147483649; 12]%N.
Proof.
  assert (C : forall xs, forallb (fun w => (w <? 2147483648)%N) xs = true -> Forall clear xs).
  { intros xs E. apply Forall_forall. intros x Hx. rewrite forallb_forall in E. apply E, N.ltb_lt in Hx. exact Hx. }
  eexists. split; [|split; [|split; [|split; [|split]]]].
  - eapply (as_set_lits _ _ _ 0 [9; 8]%N); [
      eapply as_collect; [
        eapply (as_delete _ _ _ 0); [
          eapply (as_delete _ _ _ 0); [
            eapply (as_shrink _ _ _ 5 2); [
              eapply (as_add _ _ _ [5]%N [12]%N); [
                eapply (as_add _ _ _ [7]%N [2; 4; 6]%N); [
                  eapply (as_add _ _ _ [3]%N [1; 3; 5]%N); [apply as_new| | | | ] | | | | ] | | | | ] | ] | ] | ] | ] | | ];
    try (apply C; vm_compute; reflexivity); try (vm_compute; reflexivity).
  - vm_compute. reflexivity.
  - vm_compute. reflexivity.
  - vm_compute. reflexivity.
  - vm_compute. reflexivity.
  - vm_compute. reflexivity.
Qed.

(** Five clauses of which the first, third and fifth are deleted: three gaps. *)
Example gc_map_example : exists a a' gaps,
  asafe 1 (fun h _ _ => h) a /\ collect_garbage 1 a = Ret (a', gaps) /\ length gaps = 3 /\
  map (gc_update_search gaps) [0; 4; 8; 12; 16; 17; 99] =
    [Ret None; Ret (Some 0); Ret None; Ret (Some 4); Ret None; Ret None; Ret (Some 87)].
Proof.
  assert (C : forall xs, forallb (fun w => (w <? 2147483648)%N) xs = true -> Forall clear xs).
  { intros xs E. apply Forall_forall. intros x Hx. rewrite forallb_forall in E. apply E, N.ltb_lt in Hx. exact Hx. }
  eexists _, _, _. split; [|split; [|split]].
  - eapply (as_delete _ _ _ 16); [
      eapply (as_delete _ _ _ 8); [
        eapply (as_delete _ _ _ 0); [
          eapply (as_add _ _ _ [5]%N [12; 1]%N); [
            eapply (as_add _ _ _ [5]%N [12; 2]%N); [
              eapply (as_add _ _ _ [5]%N [12; 3]%N); [
                eapply (as_add _ _ _ [5]%N [12; 4]%N); [
                  eapply (as_add _ _ _ [5]%N [12; 5]%N); [apply as_new| | | | ] | | | | ] | | | | ] | | | | ] | | | | ] | ] | ] | ];
    try (apply C; vm_compute; reflexivity); try (vm_compute; reflexivity).
  - vm_compute. reflexivity.
  - vm_compute. reflexivity.
  - vm_compute. reflexivity.
Qed.

Print Assumptions arena_memory_safe.
Print Assumptions gc_map_total_partial.
Print Assumptions gc_map_search_partial.
Print Assumptions gc_map_overflow_refuted.
