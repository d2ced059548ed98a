(** The sorting implementation of [select_nth_unstable] meets its contract, and
    multiset equality of clauses is decided by [same_clause]. *)
From Coq Require Import NArith List Bool Arith Lia Permutation Sorted ZifyN ZifyNat ZifyBool.
From Verif Require Import Model_Base Model_Solver Spec.
Import ListNotations.

Definition pair_le (x y : N * nat) : Prop := (fst x < fst y)%N \/ fst x = fst y /\ snd x <= snd y.
Lemma pair_leb_le x y : pair_leb x y = true <-> pair_le x y.
Proof. unfold pair_leb, pair_le. rewrite orb_true_iff, andb_true_iff, N.ltb_lt, N.eqb_eq, Nat.leb_le. tauto. Qed.
Lemma pair_le_total x y : pair_leb x y = false -> pair_le y x.
Proof. intro E. unfold pair_le. unfold pair_leb in E. lia. Qed.
Lemma pair_le_trans x y z : pair_le x y -> pair_le y z -> pair_le x z.
Proof. unfold pair_le. lia. Qed.

Lemma insert_perm x l : Permutation (x :: l) (insert_pair x l).
Proof.
  induction l as [|y r IH]; simpl; auto. destruct (pair_leb x y); auto.
  eapply Permutation_trans; [apply perm_swap|]. constructor; auto.
Qed.
Lemma sort_perm l : Permutation l (sort_pairs l).
Proof. induction l; simpl; auto. eapply Permutation_trans; [apply perm_skip; exact IHl|apply insert_perm]. Qed.
Lemma insert_sorted x l : StronglySorted pair_le l -> StronglySorted pair_le (insert_pair x l).
Proof.
  induction 1 as [|y r H IH F]; simpl; [repeat constructor|]. destruct (pair_leb x y) eqn:E.
  - apply pair_leb_le in E. constructor; [constructor; auto|]. constructor; auto.
    eapply Forall_impl; [|exact F]. intros z. apply pair_le_trans; auto.
  - constructor; auto. apply Forall_forall. intros z Hz. eapply Permutation_in in Hz; [|apply Permutation_sym, insert_perm].
    destruct Hz as [<-|Hz]; [apply pair_le_total; auto|]. rewrite Forall_forall in F; auto.
Qed.
Lemma sort_sorted l : StronglySorted pair_le (sort_pairs l).
Proof. induction l; simpl; [constructor|apply insert_sorted; auto]. Qed.

Lemma sorted_split (a : list (N * nat)) m b : StronglySorted pair_le (a ++ m :: b) ->
  (forall x, In x a -> pair_le x m) /\ (forall x, In x b -> pair_le m x).
Proof.
  induction a as [|y a IH]; simpl; intro H; inversion H as [|? ? H1 H2]; subst.
  - split; [contradiction|]. rewrite Forall_forall in H2. auto.
  - destruct (IH H1) as [A B]. split; auto. intros x [<-|Hx]; auto. rewrite Forall_forall in H2. apply H2. apply in_elt.
Qed.

(** The contract of [select_nth_unstable], with the order of pairs. *)
Theorem select_sort_ok : select_ok pair_le select_sort.
Proof.
  intros xs k Hk. unfold select_sort. cbv zeta. set (s := sort_pairs xs).
  assert (Hl : length s = length xs) by (symmetry; apply Permutation_length, sort_perm).
  assert (E : s = firstn k s ++ nth k s (0%N, 0) :: skipn (S k) s).
  { rewrite <- (firstn_skipn k s) at 1. f_equal. assert (G : k < length s) by lia. clearbody s. clear Hk Hl xs. revert s G.
    induction k as [|k IH]; intros [|y s] G; simpl in *; try lia; auto. apply IH. lia. }
  split; [rewrite <- E; apply sort_perm|]. split; [rewrite firstn_length; lia|].
  apply sorted_split. rewrite <- E. apply sort_sorted.
Qed.
Lemma select_any {A} (le : A -> A -> Prop) sel : select_ok le sel -> select_ok (fun _ _ => True) sel.
Proof. intros H xs k Hk. specialize (H xs k Hk). destruct (sel xs k) as [[lo m] hi]. tauto. Qed.

Lemma same_clause_perm c d : same_clause c d = true <-> Permutation c d.
Proof.
  unfold same_clause. rewrite forallb_forall. rewrite (Permutation_count_occ N.eq_dec). split.
  - intros H x. destruct (in_dec N.eq_dec x (c ++ d)) as [G|G]; [apply Nat.eqb_eq; auto|].
    rewrite in_app_iff in G. rewrite !(proj1 (count_occ_not_In N.eq_dec _ _)); tauto.
  - intros H x _. apply Nat.eqb_eq; auto.
Qed.
Lemma same_clause_r c d d' : Permutation d d' -> same_clause c d = same_clause c d'.
Proof.
  intro P. apply eq_true_iff_eq. rewrite !same_clause_perm. split; intro H; eapply Permutation_trans; eauto. apply Permutation_sym; auto.
Qed.
Lemma drat_counts F steps L : drat_run F steps L -> forall c,
  length (filter (same_clause c) L) + count_deleted c steps = count_added c steps.
Proof.
  unfold count_deleted, count_added. induction 1 as [|steps L d _ IH _|steps L1 d' L2 d _ IH P]; intro c; auto.
  - rewrite !filter_app, !app_length. cbn [filter]. specialize (IH c). destruct (same_clause c d); cbn [length]; lia.
  - specialize (IH c). rewrite !filter_app, !app_length in *. cbn [filter] in *. rewrite (same_clause_r c d d' P).
    destruct (same_clause c d'); cbn [length] in *; lia.
Qed.
Lemma drat_prefix F a : forall b L, drat_run F (a ++ b) L -> exists L1, drat_run F a L1.
Proof.
  induction b as [|x b IH] using rev_ind; intros L H; [rewrite app_nil_r in H; eauto|].
  rewrite app_assoc in H. inversion H as [E|st L' c H1 _ E|st L1 c' L2 c H1 _ E]; [destruct (a ++ b); discriminate|..];
    apply app_inj_tail in E as [-> _]; eauto.
Qed.
Lemma drat_snoc F a x L : drat_run F (a ++ [x]) L -> match x with
  | Add c => exists L1, L = L1 ++ [c] /\ drat_run F a L1 /\ RUP (L1 ++ F) c
  | Del c => exists L1 c' L2, L = L1 ++ L2 /\ drat_run F a (L1 ++ c' :: L2) /\ Permutation c c' end.
Proof.
  intro H. inversion H as [E|st L' c H1 H2 E|st L1 c' L2 c H1 H2 E]; [destruct a; discriminate|..]; apply app_inj_tail in E as [-> <-]; eauto 6.
Qed.
