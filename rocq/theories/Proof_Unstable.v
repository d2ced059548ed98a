(** The order in which [select_nth_unstable] leaves the elements has no effect. *)
From Coq Require Import NArith List Bool Arith Lia Permutation ZifyN ZifyNat ZifyBool.
From Verif Require Import Model_Base Model_Lit Model_PartialAssignment Model_Header Model_Arena Model_Prop Model_Heap Model_Vsids
  Model_Analysis Model_Solver Spec Drivers_Solver Drivers_Api Drivers_Unstable Proof_Base Proof_Select.
Import ListNotations.

(** ** Relations *)
Definition relp {A B} (R : A -> B -> Prop) (x : res A) (y : res B) : Prop :=
  match x, y with
  | Ret a, Ret b => R a b
  | Panic _, Panic _ => True
  | OutOfFuel, OutOfFuel => True
  | _, _ => False
  end.
Lemma relp_bind {A B A' B'} (R : A -> A' -> Prop) (Q : B -> B' -> Prop) x y f g :
  relp R x y -> (forall a a', R a a' -> relp Q (f a) (g a')) -> relp Q (bind x f) (bind y g).
Proof. intros H K. destruct x, y; cbn in *; auto; contradiction. Qed.
Lemma relp_bind_same {A B B'} (Q : B -> B' -> Prop) (x : res A) f g :
  (forall a, x = Ret a -> relp Q (f a) (g a)) -> relp Q (bind x f) (bind x g).
Proof. intro K. destruct x; cbn; auto. Qed.
Lemma relp_refl {A} (R : A -> A -> Prop) x : (forall a, R a a) -> relp R x x.
Proof. intro H. destruct x; cbn; auto. Qed.

Lemma ro_refl l : reordered l l.
Proof. induction l; constructor; auto. Qed.
Lemma ro_sym l l' : reordered l l' -> reordered l' l.
Proof. induction 1; econstructor; eauto. Qed.
Lemma ro_app l l' k : reordered l l' -> reordered (l ++ k) (l' ++ k).
Proof. induction 1; cbn [app]; try (econstructor; eauto; fail). apply ro_refl. Qed.
Lemma ro_pre l k k' : reordered k k' -> reordered (l ++ k) (l ++ k').
Proof. intro H. induction l; cbn [app]; auto. constructor; auto. Qed.

Lemma sp_refl o : same_proof o o.
Proof. destruct o; cbn; auto. apply ro_refl. Qed.
Lemma sp_trans o1 o2 o3 : same_proof o1 o2 -> same_proof o2 o3 -> same_proof o1 o3.
Proof. destruct o1, o2, o3; cbn; try contradiction; auto. eapply ro_trans. Qed.
Definition csame (cx cx' : ctx) : Prop := cx_stats cx' = cx_stats cx /\ same_proof (cx_proof cx) (cx_proof cx').
Lemma cs_refl cx : csame cx cx.
Proof. split; auto. apply sp_refl. Qed.
Lemma cs_with cx cx' s : csame cx cx' -> csame (cx_with cx s) (cx_with cx' s).
Proof. intros [A B]. split; auto. Qed.
Lemma cs_log cx cx' s : csame cx cx' -> csame (cx_log cx s) (cx_log cx' s).
Proof. intros [A B]. split; auto. cbn. destruct (cx_proof cx), (cx_proof cx'); cbn in *; auto. now apply ro_app. Qed.

(** ** The functions that do not delete *)
Definition fstcx {A B} (x : ctx * A * B) := fst (fst x).
Lemma cs_add dbg cx cx' p h c : csame cx cx' ->
  relp (fun x y => fst (fst x) = fst (fst y) /\ csame (snd (fst x)) (snd (fst y)) /\ snd x = snd y) (add_clause_verbatim dbg cx p h c) (add_clause_verbatim dbg cx' p h c).
Proof.
  intros H. pose proof (proj1 H) as E. unfold add_clause_verbatim. destruct c as [|a [|b [|d r]]].
  - cbn. auto.
  - apply relp_bind_same. intros f _. destruct f; [cbn; auto|]. apply relp_bind_same. intros p' _. cbn. auto.
  - apply relp_bind_same. intros b' _. cbn [relp fst snd]. rewrite E. auto using cs_with.
  - apply relp_bind_same. intros [oc lg] _. destruct oc as [c0|]; [|cbn; auto]. apply relp_bind_same. intros w _. cbn [relp fst snd]. rewrite E. auto using cs_with.
Qed.
Lemma cs_propagate dbg cx cx' p : csame cx cx' ->
  relp (fun x y => csame (fst (fst x)) (fst (fst y)) /\ snd (fst x) = snd (fst y) /\ snd x = snd y) (propagate dbg cx p) (propagate dbg cx' p).
Proof.
  intros H. pose proof (proj1 H) as E. unfold propagate. apply relp_bind_same. intros p0 _. apply relp_bind_same. intros [p1 r] _. destruct r; cbn [relp fst snd]; auto.
  rewrite E. auto using cs_with.
Qed.
Lemma cs_analyze dbg cx cx' an p c cb : csame cx cx' ->
  relp (fun x y => csame (fst (fst (fst x))) (fst (fst (fst y))) /\ snd (fst (fst x)) = snd (fst (fst y)) /\ snd (fst x) = snd (fst y) /\ snd x = snd y)
    (analyze_conflict dbg cx an p c cb) (analyze_conflict dbg cx' an p c cb).
Proof.
  intros H. unfold analyze_conflict. destruct (negb _); [|cbn; auto]. apply relp_bind_same. intros [[p1 an1] cb1] _. apply relp_bind_same. intros [level an2] _.
  apply relp_bind_same. intros [p2 cb3] _. apply (relp_bind (fun x y => csame (fst (fst x)) (fst (fst y)) /\ snd (fst x) = snd (fst y) /\ snd x = snd y)).
  - unfold learn_and_assign. apply relp_bind_same. intros _ _. apply relp_bind_same. intros [h an1'] _.
    eapply relp_bind; [apply cs_add, cs_log, H|]. intros [[ad cx2] p3] [[ad' cx2'] p3'] (E1 & E2 & E3). cbn [fst snd] in *. subst ad' p3'.
    destruct ad; cbn [relp fst snd]; auto; apply relp_bind_same; intros l0 _; apply relp_bind_same; intros p4 _; cbn; auto.
  - intros [[cx1 an3] p3] [[cx1' an3'] p3'] (E1 & E2 & E3). cbn [fst snd] in *. subst an3' p3'. cbn. auto.
Qed.
Definition rcx {A B} (x y : A * ctx * B) : Prop := fst (fst x) = fst (fst y) /\ csame (snd (fst x)) (snd (fst y)) /\ snd x = snd y.
Lemma cs_step dbg cx cx' se : csame cx cx' -> relp rcx (search_step dbg cx se) (search_step dbg cx' se).
Proof.
  intros H. unfold search_step. destruct (p_unsat _); [cbn; unfold rcx; auto|]. apply relp_bind_same. intros p0 _.
  eapply relp_bind; [apply cs_propagate, H|]. intros [[cx1 p1] r] [[cx1' p1'] r'] (H1 & E2 & E3). cbn [fst snd] in *. subst p1' r'.
  assert (B1 : csame (bump_conflicts cx1) (bump_conflicts cx1')) by (unfold bump_conflicts; rewrite (proj1 H1); now apply cs_with).
  assert (B2 : csame (bump_decisions cx1) (bump_decisions cx1')) by (unfold bump_decisions; rewrite (proj1 H1); now apply cs_with).
  destruct r as [c|].
  - destruct (Nat.eqb _ _); [cbn; unfold rcx; auto|]. eapply relp_bind; [apply cs_analyze, B1|].
    intros [[[cx3 an] p2] cb] [[[cx3' an'] p2'] cb'] (F1 & F2 & F3 & F4). cbn [fst snd] in *. subst an' p2' cb'. cbn. unfold rcx. auto.
  - apply relp_bind_same. intros [ov vs] _. destruct ov as [v|]; [|cbn; unfold rcx; auto]. apply relp_bind_same. intros l _. apply relp_bind_same. intros p2 _. cbn. unfold rcx. auto.
Qed.

(** ** Selection *)
Lemma pair_le_antisym x y : pair_le x y -> pair_le y x -> x = y.
Proof. destruct x, y. unfold pair_le. cbn [fst snd]. intros A B. f_equal; lia. Qed.
Lemma top_incl (xs lo lo' hi hi' : list (N * nat)) m m' : NoDup xs -> Permutation xs (lo ++ m :: hi) -> Permutation xs (lo' ++ m' :: hi') ->
  (forall x, In x lo -> pair_le x m) -> (forall x, In x hi -> pair_le m x) -> (forall x, In x lo' -> pair_le x m') -> (forall x, In x hi' -> pair_le m' x) ->
  length hi' <= length hi -> incl hi' hi.
Proof.
  intros ND P P' A B A' B' L.
  assert (NH : NoDup hi) by (apply (Permutation_NoDup P) in ND; apply NoDup_app_iff in ND as (_ & ND & _); now inversion ND).
  assert (NH' : NoDup hi') by (apply (Permutation_NoDup P') in ND; apply NoDup_app_iff in ND as (_ & ND & _); now inversion ND).
  assert (dec : forall x y : N * nat, {x = y} + {x <> y}) by (decide equality; [apply Nat.eq_dec|apply N.eq_dec]).
  intros y Hy. destruct (in_dec dec y hi) as [Hi|Hi]; auto. exfalso.
  (* some element of [hi] is not in [hi'] *)
  assert (X : exists x, In x hi /\ ~ In x hi').
  { destruct (existsb (fun x => negb (if in_dec dec x hi' then true else false)) hi) eqn:Ex.
    - apply existsb_exists in Ex as (x & Hx & E). exists x. split; auto. destruct (in_dec dec x hi'); [discriminate|auto].
    - exfalso. assert (I : incl hi hi').
      { intros x Hx. destruct (in_dec dec x hi') as [|N]; auto. exfalso. assert (existsb (fun x => negb (if in_dec dec x hi' then true else false)) hi = true); [|congruence].
        apply existsb_exists. exists x. split; auto. destruct (in_dec dec x hi'); [contradiction|reflexivity]. }
      apply Hi. apply (NoDup_length_incl NH L I). exact Hy. }
  destruct X as (x & Hx & Nx).
  assert (Ix : In x xs) by (eapply Permutation_in; [apply Permutation_sym, P|apply in_or_app; right; now right]).
  assert (Iy : In y xs) by (eapply Permutation_in; [apply Permutation_sym, P'|apply in_or_app; right; now right]).
  assert (Lx : pair_le x m').
  { apply (Permutation_in _ P') in Ix. apply in_app_or in Ix as [Q|[<-|Q]]; auto; [|contradiction]. right. auto. }
  assert (Ly : pair_le y m).
  { apply (Permutation_in _ P) in Iy. apply in_app_or in Iy as [Q|[<-|Q]]; auto; [|contradiction]. right. auto. }
  apply Nx. replace x with y; auto. apply pair_le_antisym.
  - eapply pair_le_trans; [exact Ly|]. auto.
  - eapply pair_le_trans; [exact Lx|]. auto.
Qed.
Lemma top_perm select select' xs k : select_ok pair_le select -> select_ok pair_le select' -> NoDup xs -> k < length xs ->
  Permutation (snd (select xs k)) (snd (select' xs k)) /\ incl (snd (select xs k)) xs /\ NoDup (snd (select xs k)).
Proof.
  intros S S' ND Hk. specialize (S xs k Hk). specialize (S' xs k Hk). destruct (select xs k) as [[lo m] hi], (select' xs k) as [[lo' m'] hi'].
  destruct S as (P & L & A & B), S' as (P' & L' & A' & B'). cbn [snd].
  assert (LL : length hi' = length hi) by (apply Permutation_length in P, P'; rewrite app_length in P, P'; cbn [length] in P, P'; lia).
  assert (NH : NoDup hi) by (pose proof (Permutation_NoDup P ND) as Q; apply NoDup_app_iff in Q as (_ & Q & _); now inversion Q).
  assert (NH' : NoDup hi') by (pose proof (Permutation_NoDup P' ND) as Q; apply NoDup_app_iff in Q as (_ & Q & _); now inversion Q).
  split; [|split; [|exact NH]].
  - apply NoDup_Permutation; auto. intro x. split.
    + apply (top_incl xs lo' lo hi' hi m' m); auto. lia.
    + apply (top_incl xs lo lo' hi hi' m m'); auto. lia.
  - intros x Hx. eapply Permutation_in; [apply Permutation_sym, P|]. apply in_or_app. right. now right.
Qed.

(** ** Deletions of different clauses commute *)
Notation clen := (clause_len 2).
Definition dela (a : arena) (c n : nat) : arena :=
  mkArena (if Nat.ltb 0 n then write_words (a_buffer a) (c + 2) [LEN_MARKER; to_u32 (N.of_nat n)] else a_buffer a) (a_garbage a + (n + 2 + 1)).
Definition apart (c n d m : nat) : Prop := c + n + 3 <= d \/ d + m + 3 <= c.
Lemma vget_upd b i j (x : N) : i <> j -> vget (upd b i x) j = vget b j.
Proof. intro H. unfold vget. now rewrite upd_other. Qed.
Lemma firstn_skipn_upd (b : list N) : forall i p k x, i < p \/ p + k <= i -> firstn k (skipn p (upd b i x)) = firstn k (skipn p b).
Proof.
  induction b as [|y b IH]; intros i p k x H; [reflexivity|]. destruct i as [|i]; cbn [upd].
  - destruct p; [destruct k; [reflexivity|lia]|reflexivity].
  - destruct p as [|p]; cbn [skipn].
    + destruct k as [|k]; [reflexivity|]. cbn [firstn]. f_equal. apply (IH i 0 k). right. lia.
    + apply IH. lia.
Qed.
Lemma read_upd b i (x : N) p k : i < p \/ p + k <= i -> read_words (upd b i x) p k = read_words b p k.
Proof. intro H. unfold read_words. rewrite upd_length, firstn_skipn_upd; auto. Qed.
Lemma clen_dela a c n d m : apart c n d m -> clen a d = Ret m -> clen (dela a c n) d = Ret m.
Proof.
  intros H E. rewrite <- E. unfold clause_len, dela. cbn [a_buffer]. destruct (Nat.ltb_spec 0 n) as [G|G]; auto. cbn [write_words]. rewrite !vget_upd; auto; unfold apart in H; lia.
Qed.
Lemma lits_dela a c n d m : apart c n d m -> clen a d = Ret m -> long_lits (dela a c n) d = long_lits a d.
Proof.
  intros H E. unfold long_lits, arena_lits. change LONG_HEADER_LEN with 2. rewrite (clen_dela _ _ _ _ _ H E), E. cbn [bind].
  unfold dela. cbn [a_buffer]. destruct (Nat.ltb_spec 0 n) as [G|G]; auto. cbn [write_words]. rewrite !read_upd; auto; unfold apart in H; lia.
Qed.
Lemma swap4 (B : list N) p p' q q' u v w z : p <> q -> p <> q' -> p' <> q -> p' <> q' ->
  upd (upd (upd (upd B p u) p' v) q w) q' z = upd (upd (upd (upd B q w) q' z) p u) p' v.
Proof.
  intros A C D E. rewrite (upd_comm (upd B p u) p' q) by auto. rewrite (upd_comm B p q) by auto.
  rewrite (upd_comm (upd (upd B q w) p u) p' q') by auto. rewrite (upd_comm (upd B q w) p q') by auto. reflexivity.
Qed.
Lemma dela_comm a c n d m : apart c n d m -> dela (dela a c n) d m = dela (dela a d m) c n.
Proof.
  intro H. unfold dela. cbn [a_buffer a_garbage]. f_equal; [|lia]. destruct (Nat.ltb_spec 0 n), (Nat.ltb_spec 0 m); auto. cbn [write_words]. unfold apart in H.
  apply swap4; lia.
Qed.
Lemma delete_eq a c n : clen a c = Ret n -> long_delete a c = Ret (dela a c n).
Proof. intro E. unfold long_delete, arena_delete_clause. change LONG_HEADER_LEN with 2. rewrite E. cbn [bind]. unfold dela. destruct (Nat.ltb 0 n); reflexivity. Qed.

Definition less_one (s : stats) : stats :=
  mkStats (st_propagations s) (st_fixed_vars s) (st_binary s) (st_irredundant s) (st_redundant s - 1) (st_vars s) (st_decisions s) (st_conflicts s) (st_restarts s) (st_reductions s).
(** What deleting one clause does, when it works. *)
Lemma delete_inv cx a x cx1 a1 n : clen a (snd x) = Ret n -> delete_candidate (cx, a) x = Ret (cx1, a1) ->
  0 < st_redundant (cx_stats cx) /\ a1 = dela a (snd x) n /\ cx_stats cx1 = less_one (cx_stats cx) /\
  match cx_proof cx with None => cx_proof cx1 = None | Some l => exists ls, long_lits a (snd x) = Ret ls /\ cx_proof cx1 = Some (l ++ [PDelete ls]) end.
Proof.
  intros En E. unfold delete_candidate in E. destruct (Nat.ltb_spec 0 (st_redundant (cx_stats cx))) as [G|G]; [|discriminate]. cbn [cx_with cx_proof] in E.
  rewrite (delete_eq _ _ _ En) in E. destruct (cx_proof cx) as [l|] eqn:Ep.
  - destruct (long_lits a (snd x)) as [ls| |]; cbn [bind] in E; try discriminate. injection E as <- <-. repeat split; auto. exists ls. split; auto.
    cbn [cx_log cx_proof]. cbn. rewrite ?Ep. reflexivity.
  - cbn [bind] in E. injection E as <- <-. repeat split; auto.
Qed.
Lemma delete_do cx a x n : clen a (snd x) = Ret n -> 0 < st_redundant (cx_stats cx) ->
  match cx_proof cx with None => True | Some _ => exists ls, long_lits a (snd x) = Ret ls end ->
  exists cx1, delete_candidate (cx, a) x = Ret (cx1, dela a (snd x) n).
Proof.
  intros En G H. unfold delete_candidate. destruct (Nat.ltb_spec 0 (st_redundant (cx_stats cx))) as [G'|G']; [|lia]. cbn [cx_with cx_proof]. rewrite (delete_eq _ _ _ En).
  destruct (cx_proof cx) as [l|]; [destruct H as [ls ->]|]; cbn [bind]; eauto.
Qed.
Lemma delete_cs cx cx' a x n cx1 a1 : csame cx cx' -> clen a (snd x) = Ret n -> delete_candidate (cx, a) x = Ret (cx1, a1) ->
  exists cx1', delete_candidate (cx', a) x = Ret (cx1', a1) /\ csame cx1 cx1'.
Proof.
  intros [Hs Hp] En E. pose proof (delete_inv _ _ _ _ _ _ En E) as (G & -> & S1 & P1).
  destruct (delete_do cx' a x n En) as [cx1' E']; [congruence| |].
  { destruct (cx_proof cx), (cx_proof cx'); cbn in Hp; auto; [|contradiction]. destruct P1 as (ls & P1 & _). eauto. }
  exists cx1'. split; auto. pose proof (delete_inv _ _ _ _ _ _ En E') as (_ & _ & S1' & P1'). split; [congruence|].
  destruct (cx_proof cx), (cx_proof cx'); cbn in Hp; try contradiction.
  - destruct P1 as (ls & A & ->), P1' as (ls' & A' & ->). rewrite A in A'. injection A' as <-. cbn. now apply ro_app.
  - rewrite P1, P1'. exact I.
Qed.
Lemma delete_swap cx a x y n m cx1 a1 cx2 a2 : clen a (snd x) = Ret n -> clen a (snd y) = Ret m -> apart (snd x) n (snd y) m ->
  delete_candidate (cx, a) x = Ret (cx1, a1) -> delete_candidate (cx1, a1) y = Ret (cx2, a2) ->
  exists cx1' a1' cx2', delete_candidate (cx, a) y = Ret (cx1', a1') /\ delete_candidate (cx1', a1') x = Ret (cx2', a2) /\ csame cx2 cx2'.
Proof.
  intros En Em Ap E1 E2. assert (Ap' : apart (snd y) m (snd x) n) by (unfold apart in *; lia).
  pose proof (delete_inv _ _ _ _ _ _ En E1) as (G1 & -> & S1 & P1).
  pose proof (delete_inv _ _ _ _ _ _ (clen_dela _ _ _ _ _ Ap Em) E2) as (G2 & -> & S2 & P2). rewrite S1 in G2, S2. cbn [less_one st_redundant] in G2.
  rewrite (lits_dela _ _ _ _ _ Ap Em) in P2.
  destruct (delete_do cx a y m Em G1) as [cx1' E1'].
  { destruct (cx_proof cx) as [l|]; auto. destruct P1 as (ls & _ & P1). rewrite P1 in P2. destruct P2 as (ls2 & P2 & _). eauto. }
  pose proof (delete_inv _ _ _ _ _ _ Em E1') as (_ & _ & S1' & P1').
  destruct (delete_do cx1' (dela a (snd y) m) x n (clen_dela _ _ _ _ _ Ap' En)) as [cx2' E2'].
  { rewrite S1'. cbn [less_one st_redundant]. lia. }
  { rewrite (lits_dela _ _ _ _ _ Ap' En). destruct (cx_proof cx) as [l|]; [|now rewrite P1']. destruct P1' as (ls & _ & ->). destruct P1 as (ls' & P1 & _). eauto. }
  exists cx1', (dela a (snd y) m), cx2'. split; auto. split; [rewrite E2'; f_equal; f_equal; now apply dela_comm|].
  pose proof (delete_inv _ _ _ _ _ _ (clen_dela _ _ _ _ _ Ap' En) E2') as (_ & _ & S2' & P2'). rewrite (lits_dela _ _ _ _ _ Ap' En) in P2'.
  split; [rewrite S2', S1', S2; reflexivity|].
  destruct (cx_proof cx) as [l|].
  - destruct P1 as (lx & A1 & B1). rewrite B1 in P2. destruct P2 as (ly & A2 & B2). destruct P1' as (ly' & A1' & B1'). rewrite B1' in P2'. destruct P2' as (lx' & A2' & B2').
    rewrite B2, B2'. rewrite A2 in A1'. injection A1' as <-. rewrite A1 in A2'. injection A2' as <-. cbn [same_proof]. rewrite <- !app_assoc. apply ro_pre. cbn [app]. constructor.
  - rewrite P1 in P2. rewrite P1' in P2'. rewrite P2, P2'. exact I.
Qed.

Definition spread (a : arena) (xs : list (N * nat)) : Prop :=
  (forall x, In x xs -> exists n, clen a (snd x) = Ret n) /\
  (forall x y n m, In x xs -> In y xs -> x <> y -> clen a (snd x) = Ret n -> clen a (snd y) = Ret m -> apart (snd x) n (snd y) m).
Lemma spread_incl a xs ys : incl ys xs -> spread a xs -> spread a ys.
Proof. intros H [A B]. split; [intros x Hx; auto|]. intros x y n m Hx Hy. apply B; auto. Qed.
Lemma spread_dela a x n xs : ~ In x xs -> spread a (x :: xs) -> clen a (snd x) = Ret n -> spread (dela a (snd x) n) xs.
Proof.
  intros Nx [A B] En.
  assert (K : forall y m, In y xs -> clen a (snd y) = Ret m -> clen (dela a (snd x) n) (snd y) = Ret m).
  { intros y m Hy Em. apply clen_dela; auto. apply (B x y); auto; [now left|now right|]. intros ->. auto. }
  split.
  - intros y Hy. destruct (A y) as [m Em]; [now right|]. exists m. auto.
  - intros y z m k Hy Hz Ne Em Ek. destruct (A y) as [m0 Em0]; [now right|]. destruct (A z) as [k0 Ek0]; [now right|].
    pose proof (K _ _ Hy Em0). pose proof (K _ _ Hz Ek0). assert (m = m0) by congruence. assert (k = k0) by congruence. subst. apply (B y z); auto; now right.
Qed.
Lemma delete_perm xs ys : Permutation xs ys -> forall a cx cx' cx1 a1, NoDup xs -> spread a xs -> csame cx cx' ->
  foldM delete_candidate xs (cx, a) = Ret (cx1, a1) -> exists cx2, foldM delete_candidate ys (cx', a) = Ret (cx2, a1) /\ csame cx1 cx2.
Proof.
  assert (One : forall l, (forall a cx cx' cx1 a1, NoDup l -> spread a l -> csame cx cx' ->
    foldM delete_candidate l (cx, a) = Ret (cx1, a1) -> exists cx2, foldM delete_candidate l (cx', a) = Ret (cx2, a1) /\ csame cx1 cx2)).
  { induction l as [|x l IH]; intros a cx cx' cx1 a1 ND S H E; cbn [foldM] in *; [injection E as <- <-; eauto|].
    inversion ND as [|? ? Nx ND']; subst. destruct (proj1 S x) as [n En]; [now left|]. destruct (delete_candidate (cx, a) x) as [[cx0 a0]| |] eqn:E0; cbn [bind] in E; try discriminate.
    destruct (delete_cs _ _ _ _ _ _ _ H En E0) as (cx0' & E0' & H0). rewrite E0'. cbn [bind]. pose proof (delete_inv _ _ _ _ _ _ En E0) as (_ & -> & _).
    eapply IH; [exact ND'| |exact H0|exact E]. now apply spread_dela. }
  induction 1 as [|x xs ys P IH|x y l|xs ys zs P1 IH1 P2 IH2]; intros a cx cx' cx1 a1 ND S H E.
  - eapply One; eauto.
  - cbn [foldM] in *. inversion ND as [|? ? Nx ND']; subst. destruct (proj1 S x) as [n En]; [now left|]. destruct (delete_candidate (cx, a) x) as [[cx0 a0]| |] eqn:E0; cbn [bind] in E; try discriminate.
    destruct (delete_cs _ _ _ _ _ _ _ H En E0) as (cx0' & E0' & H0). rewrite E0'. cbn [bind]. pose proof (delete_inv _ _ _ _ _ _ En E0) as (_ & -> & _).
    eapply IH; [exact ND'| |exact H0|exact E]. now apply spread_dela.
  - (* perm_swap: y :: x :: l ~ x :: y :: l *)
    cbn [foldM] in *. inversion ND as [|? ? Ny ND']; subst. inversion ND' as [|? ? Nx ND'']; subst. destruct (proj1 S x) as [n En]; [right; now left|]. destruct (proj1 S y) as [m Em]; [now left|].
    assert (Ne : y <> x) by (intros ->; apply Ny; now left).
    destruct (delete_candidate (cx, a) y) as [[cx0 a0]| |] eqn:E0; cbn [bind] in E; try discriminate. destruct (delete_candidate (cx0, a0) x) as [[cx3 a3]| |] eqn:E3; cbn [bind] in E; try discriminate.
    assert (Ap : apart (snd y) m (snd x) n) by (apply (proj2 S y x); auto; [now left|right; now left]).
    destruct (delete_swap _ _ _ _ _ _ _ _ _ _ Em En Ap E0 E3) as (cxa & aa & cxb & Ea & Eb & Hb).
    pose proof (delete_inv _ _ _ _ _ _ Em E0) as (_ & -> & _). pose proof (delete_inv _ _ _ _ _ _ (clen_dela _ _ _ _ _ Ap En) E3) as (_ & -> & _).
    assert (S3 : spread (dela (dela a (snd y) m) (snd x) n) l).
    { apply spread_dela; [exact Nx| |now apply (clen_dela _ _ m)]. apply spread_dela; [exact Ny|exact S|exact Em]. }
    assert (Ap' : apart (snd x) n (snd y) m) by (unfold apart in *; lia).
    destruct (delete_cs _ _ _ _ _ _ _ H En Ea) as (cxa' & Ea' & Ha'). rewrite Ea'. cbn [bind]. pose proof (delete_inv _ _ _ _ _ _ En Ea) as (_ & -> & _).
    destruct (delete_cs _ _ _ _ _ _ _ Ha' (clen_dela _ _ _ _ _ Ap' Em) Eb) as (cxb' & Eb' & Hb'). rewrite Eb'. cbn [bind].
    eapply One; [exact ND''|exact S3| |exact E]. split; [rewrite (proj1 Hb'), (proj1 Hb); reflexivity|]. eapply sp_trans; [apply Hb|apply Hb'].
  - destruct (IH1 a cx cx cx1 a1 ND S (cs_refl _) E) as (cx2 & E2 & H2).
    destruct (IH2 a cx cx' cx2 a1) as (cx3 & E3 & H3); auto.
    { eapply Permutation_NoDup; eauto. }
    { eapply spread_incl; [|exact S]. intros z Hz. eapply Permutation_in; [apply Permutation_sym, P1|exact Hz]. }
    exists cx3. split; auto. split; [rewrite (proj1 H3), (proj1 H2); reflexivity|]. eapply sp_trans; [apply H2|apply H3].
Qed.
Lemma delete_fuel xs : forall st, foldM delete_candidate xs st <> OutOfFuel.
Proof.
  induction xs as [|x xs IH]; intros [cx a]; [discriminate|]. cbn [foldM]. unfold delete_candidate at 1. destruct (Nat.ltb _ _); [|discriminate]. cbn [cx_with cx_proof].
  assert (V : forall b i, @vget N b i <> OutOfFuel) by (intros b i; unfold vget; destruct (nth_error b i); discriminate).
  assert (C : forall c, clen a c <> OutOfFuel) by (intro c; unfold clause_len; pose proof (V (a_buffer a) (c + 2)); destruct (vget _ _); cbn [bind]; try congruence; destruct (has_marker _); discriminate).
  assert (D : long_delete a (snd x) <> OutOfFuel).
  { unfold long_delete, arena_delete_clause. change LONG_HEADER_LEN with 2. specialize (C (snd x)). destruct (clen a (snd x)); cbn [bind]; try congruence. destruct (Nat.ltb _ _); discriminate. }
  assert (L : long_lits a (snd x) <> OutOfFuel).
  { unfold long_lits, arena_lits. change LONG_HEADER_LEN with 2. specialize (C (snd x)). destruct (clen a (snd x)); cbn [bind]; try congruence. unfold read_words. destruct (Nat.leb _ _); discriminate. }
  destruct (cx_proof cx); [destruct (long_lits a (snd x))|]; cbn [bind]; try congruence; destruct (long_delete a (snd x)); cbn [bind]; try congruence; apply IH.
Qed.

(** ** The candidates are spread *)
Lemma find_inv fuel : forall buf pos o, 2 <= pos -> find_clause_loop 2 fuel buf pos = Ret o ->
  match o with None => True | Some c => pos <= c + 2 /\ exists w, vget buf (c + 2) = Ret w /\ has_marker w = true end.
Proof.
  induction fuel as [|f IH]; intros buf pos o Hp E; [discriminate|]. cbn [find_clause_loop] in E. destruct (nth_error buf pos) as [w|] eqn:En; [|now injection E as <-].
  destruct (has_marker w) eqn:Em.
  - destruct (N.eqb _ _).
    + destruct (vget buf (pos + 1)) as [n| |]; cbn [bind] in E; try discriminate. apply IH in E; [|lia]. destruct o as [c|]; auto. destruct E as [E1 E2]. split; [lia|auto].
    + injection E as <-. split; [lia|]. exists w. split; auto. replace (pos - 2 + 2) with pos by lia. unfold vget. now rewrite En.
  - apply IH in E; [|lia]. destruct o as [c|]; auto. destruct E as [E1 E2]. split; [lia|auto].
Qed.
Lemma next_inv a it c : long_next a it = Ret (Some c) ->
  (exists m, clen a c = Ret m) /\ match it with None => True | Some d => exists n, clen a d = Ret n /\ d + n + 3 <= c end.
Proof.
  intro E. unfold long_next, next_clause in E. change LONG_HEADER_LEN with 2 in E.
  assert (G : exists start, find_clause 2 a start = Ret (Some c) /\ match it with None => True | Some d => exists n, clen a d = Ret n /\ d + n + 3 <= start end).
  { destruct it as [d|]; [|exists 0; auto]. destruct (clen a d) as [n| |] eqn:En; cbn [bind] in E; try discriminate. exists (d + n + 2 + 1). split; auto. exists n. split; auto. lia. }
  destruct G as (start & E1 & G). unfold find_clause in E1. apply find_inv in E1; [|lia]. destruct E1 as (L & w & Ew & Em). split.
  - unfold clause_len. rewrite Ew. cbn [bind]. rewrite Em. eauto.
  - destruct it as [d|]; auto. destruct G as (n & En & L2). exists n. split; auto. lia.
Qed.
Lemma candidate_inv a c a' o : candidate a c = Ret (a', o) -> forall d, d < c \/ d = c + 2 -> vget (a_buffer a') d = vget (a_buffer a) d.
Proof.
  intros E d Hd. unfold candidate in E. destruct (long_len a c) as [len| |]; cbn [bind] in E; try discriminate. destruct (long_header_of a c) as [h| |]; cbn [bind] in E; try discriminate.
  destruct (lh_protected h); [now injection E as <- _|]. destruct (negb _); [now injection E as <- _|]. destruct (_ <=? 2)%N; [now injection E as <- _|].
  match type of E with (let '(_, _) := ?X in _) = _ => destruct X as [h' skip] end. unfold long_set_header, arena_set_header in E. destruct (clause_len LONG_HEADER_LEN a c) as [l| |]; cbn [bind] in E; try discriminate.
  assert (Ea : a' = mkArena (write_words (a_buffer a) c (lh_words h')) (a_garbage a)) by (destruct skip; now injection E as <- _). subst a'. cbn [a_buffer lh_words write_words].
  rewrite !vget_upd; auto; lia.
Qed.
Definition ordered (a : arena) (it : option cref) (cs : list (N * nat)) : Prop :=
  (forall x, In x cs -> exists n, clen a (snd x) = Ret n) /\
  ForallOrdPairs (fun x y => exists n, clen a (snd x) = Ret n /\ snd x + n + 3 <= snd y) cs /\
  match it with None => cs = [] | Some c => exists m, clen a c = Ret m /\ forall x n, In x cs -> clen a (snd x) = Ret n -> snd x + n + 3 <= c + m + 3 end.
Lemma fop_snoc {A} (R : A -> A -> Prop) l x : ForallOrdPairs R l -> (forall y, In y l -> R y x) -> ForallOrdPairs R (l ++ [x]).
Proof.
  induction 1 as [|y l F H IH]; intro K; cbn [app]; [repeat constructor|]. constructor; [|apply IH; intros z Hz; apply K; now right].
  apply Forall_app. split; auto. constructor; auto. apply K. now left.
Qed.
Lemma candidates_ordered fuel : forall a it cs a' cs', ordered a it cs -> candidates_loop fuel a it cs = Ret (a', cs') -> exists it', ordered a' it' cs'.
Proof.
  induction fuel as [|f IH]; intros a it cs a' cs' (O1 & O2 & O3) E; [discriminate|]. cbn [candidates_loop] in E. destruct (long_next a it) as [[c|]| |] eqn:En; cbn [bind] in E; try discriminate.
  2:{ injection E as <- <-. exists it. repeat split; auto. }
  destruct (candidate a c) as [[a1 o]| |] eqn:Ec; cbn [bind] in E; try discriminate. apply IH in E; auto. clear IH E.
  apply next_inv in En as ((m & Em) & Hit). pose proof (candidate_inv _ _ _ _ Ec) as V.
  assert (B : forall x n, In x cs -> clen a (snd x) = Ret n -> snd x + n + 3 <= c).
  { intros x n Hx Ex. destruct it as [d|]; [|subst cs; contradiction]. destruct Hit as (k & Ek & L). destruct O3 as (k' & Ek' & Q). assert (k' = k) by congruence. subst k'. specialize (Q _ _ Hx Ex). lia. }
  assert (K : forall x n, In x cs -> clen a (snd x) = Ret n -> clen a1 (snd x) = Ret n).
  { intros x n Hx Ex. rewrite <- Ex. unfold clause_len. rewrite V; auto. left. specialize (B _ _ Hx Ex). lia. }
  assert (Kc : clen a1 c = Ret m) by (rewrite <- Em; unfold clause_len; rewrite V; auto).
  assert (O2' : ForallOrdPairs (fun x y => exists n, clen a1 (snd x) = Ret n /\ snd x + n + 3 <= snd y) cs).
  { clear -O2 K. induction O2 as [|x l F H IH]; constructor; [|apply IH; intros y n Hy; apply K; now right]. eapply Forall_impl; [|exact F]. cbv beta. intros y (n & E & L). exists n. split; auto. apply K; auto. now left. }
  assert (O3' : forall x n, In x cs -> clen a1 (snd x) = Ret n -> snd x + n + 3 <= c).
  { intros x n Hx Ex. destruct (O1 x Hx) as (n0 & E0). pose proof (K _ _ Hx E0). assert (n = n0) by congruence. subst n0. now apply B. }
  destruct o as [s|].
  - split; [|split].
    + intros x Hx. apply in_app_or in Hx as [Hx|[<-|[]]]; [destruct (O1 x Hx) as (n & En); exists n; auto|exists m; auto].
    + apply fop_snoc; auto. intros y Hy. destruct (O1 y Hy) as (n & En). exists n. split; [auto|]. cbn [snd]. now apply B.
    + exists m. split; auto. intros x n Hx Ex. apply in_app_or in Hx as [Hx|[<-|[]]]; [specialize (O3' _ _ Hx Ex); lia|]. cbn [snd] in *. assert (n = m) by congruence. lia.
  - split; [|split]; auto.
    + intros x Hx. destruct (O1 x Hx) as (n & En). exists n. auto.
    + exists m. split; auto. intros x n Hx Ex. specialize (O3' _ _ Hx Ex). lia.
Qed.
Lemma ordered_spread a it cs : ordered a it cs -> spread a cs /\ NoDup cs.
Proof.
  intros (O1 & O2 & _). split; [split; [exact O1|]|].
  - intros x y n m Hx Hy Ne En Em. destruct (ForallOrdPairs_In O2 x y Hx Hy) as [->|[(k & Ek & L)|(k & Ek & L)]]; [congruence| |]; unfold apart.
    + assert (k = n) by congruence. lia.
    + assert (k = m) by congruence. lia.
  - clear O1. induction O2 as [|x l F H IH]; constructor; auto. intro Hx. rewrite Forall_forall in F. destruct (F _ Hx) as (n & _ & L). lia.
Qed.

(** ** The whole solver *)
Section Two.
Variables (select select' : selection) (dbg : bool).
Hypothesis Hs : select_ok pair_le select.
Hypothesis Hs' : select_ok pair_le select'.

Definition rx {B} (x y : ctx * B) : Prop := csame (fst x) (fst y) /\ snd x = snd y.
Lemma cs_reduce cx cx' se : csame cx cx' -> relp rx (reduce select cx se) (reduce select' cx' se).
Proof.
  intro H. unfold reduce. apply relp_bind_same. intros a1 _. apply relp_bind_same. intros [a2 cs] Ec.
  assert (B : csame (bump_reductions cx) (bump_reductions cx')) by (unfold bump_reductions; rewrite (proj1 H); now apply cs_with).
  apply (relp_bind rx); [|intros [c2 a3] [c2' a3'] [H1 E1]; cbn [fst snd] in *; subst a3'; apply relp_bind_same; intros a4 _; cbn; split; auto].
  apply candidates_ordered in Ec as (it & O); [|repeat split; [intros x []|constructor]]. apply ordered_spread in O as [S ND].
  destruct cs as [|x cs]; [cbn; split; auto|]. set (xs := x :: cs) in *. assert (Hk : Nat.div (length xs) 2 < length xs) by (apply Nat.div_lt; [cbn; lia|lia]).
  destruct (top_perm select select' xs _ Hs Hs' ND Hk) as (P & I & N). destruct (select xs _) as [lo hi], (select' xs _) as [lo' hi']. cbn [snd] in *.
  pose proof (spread_incl _ _ _ I S) as S1. pose proof (Permutation_NoDup P N) as N'.
  assert (S1' : spread a2 hi') by (eapply spread_incl; [|exact S1]; intros z Hz; eapply Permutation_in; [apply Permutation_sym, P|exact Hz]).
  destruct lo as [lo m], lo' as [lo' m']. destruct (foldM delete_candidate hi (bump_reductions cx, a2)) as [[c1 a3]| |] eqn:E.
  - destruct (delete_perm _ _ P _ _ _ _ _ N S1 B E) as (c2 & -> & H2). cbn. split; auto.
  - destruct (foldM delete_candidate hi' (bump_reductions cx', a2)) as [[c1 a3]| |] eqn:E'; cbn; auto; [|eapply delete_fuel; exact E'].
    assert (Bs : csame (bump_reductions cx') (bump_reductions cx)).
    { destruct B as [B1 B2]. split; auto. destruct (cx_proof (bump_reductions cx)), (cx_proof (bump_reductions cx')); cbn in *; auto. now apply ro_sym. }
    destruct (delete_perm _ _ (Permutation_sym P) _ _ _ _ _ N' S1' Bs E') as (c2 & E2 & _). congruence.
  - exfalso. eapply delete_fuel; exact E.
Qed.
Lemma cs_schedule cx cx' st : csame cx cx' -> relp rcx (schedule_search_step select dbg cx st) (schedule_search_step select' dbg cx' st).
Proof.
  intro H. pose proof (proj1 H) as E. unfold schedule_search_step.
  assert (Er : should_restart cx' (sta_schedule st) = should_restart cx (sta_schedule st)) by (unfold should_restart; now rewrite E). rewrite Er. destruct (should_restart cx (sta_schedule st)) as [dr sc1].
  apply (relp_bind rx).
  { destruct dr; [|cbn; split; auto]. unfold restart. assert (B : csame (bump_restarts cx) (bump_restarts cx')) by (unfold bump_restarts; rewrite E; now apply cs_with).
    destruct (Nat.ltb _ _); [|cbn; split; auto]. apply relp_bind_same. intros [p cb] _. cbn. split; auto. }
  intros [cx1 se1] [cx1' se1'] [H1 E1]. cbn [fst snd] in *. subst se1'.
  assert (Ed : should_reduce cx1' sc1 = should_reduce cx1 sc1) by (unfold should_reduce; now rewrite (proj1 H1)). rewrite Ed. destruct (should_reduce cx1 sc1) as [dd sc2].
  apply (relp_bind rx).
  { destruct dd; [|cbn; split; auto]. eapply relp_bind; [apply cs_reduce, H1|]. intros [cx2 se2] [cx2' se2'] [H2 E2]. cbn [fst snd] in *. subst se2'.
    unfold report. rewrite (proj1 H2). apply relp_bind_same. intros _ _. cbn. split; auto. }
  intros [cx2 se2] [cx2' se2'] [H2 E2]. cbn [fst snd] in *. subst se2'. eapply relp_bind; [apply cs_step, H2|].
  intros [[r cx3] se3] [[r' cx3'] se3'] (F1 & F2 & F3). cbn [fst snd] in *. subst r' se3'. cbn. unfold rcx. auto.
Qed.
Definition ssame (s s' : solver) : Prop := csame (so_ctx s) (so_ctx s') /\ so_state s' = so_state s.
Lemma cs_solve fuel : forall s s', ssame s s' -> relp (fun x y => fst x = fst y /\ ssame (snd x) (snd y)) (solve select dbg fuel s) (solve select' dbg fuel s').
Proof.
  induction fuel as [|f IH]; intros s s' [H E]; [cbn; auto|]. cbn [solve]. rewrite E. eapply relp_bind; [apply cs_schedule, H|].
  intros [[r cx] st] [[r' cx'] st'] (F1 & F2 & F3). cbn [fst snd] in *. subst r' st'. destruct r as [b|].
  - unfold report. rewrite (proj1 F2). apply relp_bind_same. intros _ _. cbn. repeat split; auto; apply F2.
  - apply IH. split; auto.
Qed.
Lemma cs_solver_add s s' c : ssame s s' -> relp ssame (solver_add_clause dbg s c) (solver_add_clause dbg s' c).
Proof.
  intros [H E]. unfold solver_add_clause. rewrite (proj1 H), E. apply (relp_bind rx).
  - destruct (Nat.ltb _ _); [|cbn; split; auto]. apply relp_bind_same. intros se _. cbn. split; auto. unfold cx_set_vars. rewrite (proj1 H). now apply cs_with.
  - intros [cx1 se1] [cx1' se1'] [H1 E1]. cbn [fst snd] in *. subst se1'. eapply relp_bind; [apply cs_add, H1|]. intros [[ad cx2] p2] [[ad' cx2'] p2'] (F1 & F2 & F3). cbn [fst snd] in *. subst p2'. cbn. split; auto.
Qed.
End Two.
