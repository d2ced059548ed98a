(** Basic lemmas: lists, the result monad, literals. *)
From Coq Require Import NArith ZArith List Bool Arith Lia Permutation ZifyN ZifyNat ZifyBool.
From Verif Require Import Model_Base Model_Lit Spec.
Import ListNotations.

(** ** The monad *)

Lemma bind_ret {A B} (x : res A) (f : A -> res B) b :
  bind x f = Ret b -> exists a, x = Ret a /\ f a = Ret b.
Proof. destruct x; simpl; intro H; try discriminate; eauto. Qed.

Ltac inv H := inversion H; subst; clear H.

(** Decompose hypotheses of the form [bind .. = Ret ..]. *)
Ltac mstep :=
  match goal with
  | H : bind _ _ = Ret _ |- _ =>
      let a := fresh "r" in let H1 := fresh "E" in let H2 := fresh "H" in
      apply bind_ret in H; destruct H as (a & H1 & H2); cbv beta in H2
  | H : (let '(_, _) := ?x in _) = Ret _ |- _ => destruct x eqn:?
  | H : (if ?b then _ else _) = Ret _ |- _ => destruct b eqn:?; try discriminate H
  | H : Ret _ = Ret _ |- _ => inv H
  | H : Panic _ = Ret _ |- _ => discriminate H
  | H : OutOfFuel = Ret _ |- _ => discriminate H
  end.

Lemma vget_ok {A} (v : list A) i a : vget v i = Ret a <-> nth_error v i = Some a.
Proof. unfold vget. destruct (nth_error v i); split; intro H; inv H; reflexivity. Qed.

Lemma vget_lt {A} (v : list A) i a : vget v i = Ret a -> i < length v.
Proof. rewrite vget_ok. intro H. apply nth_error_Some. congruence. Qed.

Lemma vget_in {A} (v : list A) i : i < length v -> exists a, vget v i = Ret a.
Proof.
  intro H. destruct (nth_error v i) eqn:E.
  - exists a. apply vget_ok; assumption.
  - apply nth_error_None in E. lia.
Qed.

Lemma vget_nth {A} (d : A) v i : i < length v -> vget v i = Ret (nth i v d).
Proof. intro H. apply vget_ok. apply nth_error_nth'. assumption. Qed.

Lemma upd_length {A} (v : list A) i a : length (upd v i a) = length v.
Proof. revert i; induction v; destruct i; simpl; auto. Qed.

Lemma upd_same {A} (v : list A) i a : i < length v -> nth_error (upd v i a) i = Some a.
Proof. revert i; induction v; destruct i; simpl; intros; try lia; auto. apply IHv. lia. Qed.

Lemma upd_other {A} (v : list A) i j a : i <> j -> nth_error (upd v i a) j = nth_error v j.
Proof. revert i j; induction v; destruct i, j; simpl; intros; try congruence; auto. Qed.

Lemma upd_nth {A} (v : list A) i j a :
  nth_error (upd v i a) j =
  if Nat.eqb i j then (if Nat.ltb i (length v) then Some a else None) else nth_error v j.
Proof.
  destruct (Nat.eqb_spec i j).
  - subst. destruct (Nat.ltb_spec j (length v)).
    + apply upd_same; auto.
    + apply nth_error_None. rewrite upd_length. auto.
  - apply upd_other; auto.
Qed.

Lemma upd_oob {A} (v : list A) i a : length v <= i -> upd v i a = v.
Proof. revert i; induction v; destruct i; simpl; intros; try lia; auto. f_equal. apply IHv. lia. Qed.

Lemma upd_id {A} (v : list A) i a : nth_error v i = Some a -> upd v i a = v.
Proof. revert i; induction v; destruct i; simpl; intros H; try discriminate; inv H; auto.
  f_equal; auto. Qed.

Lemma upd_upd {A} (v : list A) i a b : upd (upd v i a) i b = upd v i b.
Proof. revert i; induction v; destruct i; simpl; auto. f_equal; auto. Qed.

Lemma upd_comm {A} (v : list A) i j a b :
  i <> j -> upd (upd v i a) j b = upd (upd v j b) i a.
Proof. revert i j; induction v; destruct i, j; simpl; intros; try congruence; auto.
  f_equal; auto. Qed.

Lemma upd_app_l {A} (v w : list A) i a :
  i < length v -> upd (v ++ w) i a = upd v i a ++ w.
Proof. revert i; induction v; destruct i; simpl; intros; try lia; auto. f_equal. apply IHv. lia. Qed.

Lemma upd_app_r {A} (v w : list A) i a :
  upd (v ++ w) (length v + i) a = v ++ upd w i a.
Proof. induction v; simpl; auto. f_equal; auto. Qed.

Lemma upd_split {A} (v : list A) i x a :
  nth_error v i = Some x -> exists l r, v = l ++ x :: r /\ length l = i /\ upd v i a = l ++ a :: r.
Proof.
  revert i; induction v; destruct i; simpl; intros H; try discriminate.
  - inv H. exists [], v. auto.
  - destruct (IHv _ H) as (l & r & -> & <- & E). exists (a0 :: l), r. simpl. rewrite E. auto.
Qed.

Lemma in_upd {A} (v : list A) i a x : In x (upd v i a) -> x = a \/ In x v.
Proof. revert i; induction v; destruct i; simpl; intros H; auto; destruct H; auto.
  destruct (IHv _ H); auto. Qed.

Lemma vset_ok {A} (v : list A) i a v' :
  vset v i a = Ret v' <-> i < length v /\ v' = upd v i a.
Proof.
  unfold vset. destruct (Nat.ltb_spec i (length v)); split; intros; try (destruct H0; lia).
  - inv H0. auto.
  - destruct H0; subst; auto.
  - discriminate.
Qed.

Lemma vset_lt {A} (v : list A) i a : i < length v -> vset v i a = Ret (upd v i a).
Proof. intro. apply vset_ok. auto. Qed.

Lemma vresize_length {A} (v : list A) n a : length (vresize v n a) = n.
Proof. unfold vresize. rewrite app_length, firstn_length, repeat_length. lia. Qed.

Lemma nth_error_repeat' {A} (a : A) n i : i < n -> nth_error (repeat a n) i = Some a.
Proof. revert i; induction n; destruct i; simpl; intros; try lia; auto. apply IHn. lia. Qed.

Lemma nth_error_firstn {A} (v : list A) n i :
  nth_error (firstn n v) i = if Nat.ltb i n then nth_error v i else None.
Proof.
  revert v i; induction n; intros v i; simpl.
  - destruct i; reflexivity.
  - destruct v; simpl.
    + destruct i; simpl; auto. destruct (Nat.ltb (S i) (S n)); auto.
    + destruct i; simpl; auto. rewrite IHn. reflexivity.
Qed.

Lemma nth_error_skipn {A} (v : list A) n i : nth_error (skipn n v) i = nth_error v (n + i).
Proof. revert v; induction n; intros v; simpl; auto. destruct v; simpl; auto. destruct i; auto. Qed.

Lemma vresize_nth {A} (v : list A) n a i :
  i < n -> nth_error (vresize v n a) i =
           Some (match nth_error v i with Some x => x | None => a end).
Proof.
  intro H. unfold vresize. destruct (Nat.ltb_spec i (length v)).
  - rewrite nth_error_app1 by (rewrite firstn_length; lia).
    rewrite nth_error_firstn. destruct (Nat.ltb_spec i n); [|lia].
    destruct (nth_error v i) eqn:E; auto. apply nth_error_None in E. lia.
  - rewrite nth_error_app2 by (rewrite firstn_length; lia).
    rewrite nth_error_repeat' by (rewrite firstn_length; lia).
    destruct (nth_error v i) eqn:E; auto.
    assert (i < length v) by (apply nth_error_Some; congruence). lia.
Qed.

Lemma vresize_grow {A} (v : list A) n a :
  length v <= n -> vresize v n a = v ++ repeat a (n - length v).
Proof. intro H. unfold vresize. rewrite firstn_all2; auto. Qed.

Lemma foldM_app {A S} (f : S -> A -> res S) l1 l2 s :
  foldM f (l1 ++ l2) s = let* s' := foldM f l1 s in foldM f l2 s'.
Proof. revert s; induction l1; intro s; simpl; auto. destruct (f s a); simpl; auto. Qed.

(** Rule for [for] loops: an invariant indexed by the processed prefix. *)
Lemma foldM_inv {A S} (f : S -> A -> res S) (l : list A) (I : list A -> S -> Prop) s :
  I [] s ->
  (forall done a rest s, l = done ++ a :: rest -> I done s ->
     exists s', f s a = Ret s' /\ I (done ++ [a]) s') ->
  exists s', foldM f l s = Ret s' /\ I l s'.
Proof.
  intros H0 Hstep.
  cut (forall rest done s, l = done ++ rest -> I done s ->
         exists s', foldM f rest s = Ret s' /\ I l s').
  { intro H. apply (H l []); auto. }
  induction rest as [|a rest IH]; intros d s1 E Hs; simpl.
  - rewrite app_nil_r in E. subst. eauto.
  - destruct (Hstep _ _ _ _ E Hs) as (s2 & E2 & Hs2). rewrite E2. simpl.
    apply (IH (d ++ [a])); auto. rewrite <- app_assoc. assumption.
Qed.

(** Partial-correctness version. *)
Lemma foldM_inv_ret {A S} (f : S -> A -> res S) (l : list A) (I : list A -> S -> Prop) s s' :
  foldM f l s = Ret s' ->
  I [] s ->
  (forall done a rest s s', l = done ++ a :: rest -> I done s ->
     f s a = Ret s' -> I (done ++ [a]) s') ->
  I l s'.
Proof.
  intros HF H0 Hstep.
  cut (forall rest done s, l = done ++ rest -> I done s -> foldM f rest s = Ret s' -> I l s').
  { intro H. apply (H l [] s); auto. }
  induction rest as [|a rest IH]; intros d s1 E Hs HF1; simpl in HF1.
  - rewrite app_nil_r in E. subst. inv HF1. auto.
  - apply bind_ret in HF1. destruct HF1 as (s2 & E2 & HF2).
    apply (IH (d ++ [a]) s2); eauto. rewrite <- app_assoc. assumption.
Qed.

Lemma mapM_ok {A B} (f : A -> res B) l :
  (forall a, In a l -> exists b, f a = Ret b) -> exists bs, mapM f l = Ret bs.
Proof.
  induction l; simpl; intro H; [eauto|].
  destruct (H a (or_introl eq_refl)) as (b & ->). destruct IHl as (bs & ->); eauto. simpl. eauto.
Qed.

Lemma mapM_Forall2 {A B} (f : A -> res B) l bs :
  mapM f l = Ret bs <-> Forall2 (fun a b => f a = Ret b) l bs.
Proof.
  revert bs; induction l; simpl; intros bs; split; intro H.
  - inv H. constructor.
  - inv H. reflexivity.
  - repeat mstep. constructor; auto. apply IHl; auto.
  - inv H. rewrite H2. simpl. apply IHl in H4. rewrite H4. reflexivity.
Qed.

Lemma mapM_map {A B} (f : A -> res B) (g : A -> B) l :
  (forall a, In a l -> f a = Ret (g a)) -> mapM f l = Ret (map g l).
Proof.
  induction l; simpl; intro H; auto. rewrite H by auto. simpl. rewrite IHl; auto.
Qed.

Lemma removelast_last_app {A} (l : list A) x : removelast (l ++ [x]) = l.
Proof. rewrite removelast_app by discriminate. simpl. apply app_nil_r. Qed.

Lemma NoDup_app_iff {A} (l1 l2 : list A) :
  NoDup (l1 ++ l2) <-> NoDup l1 /\ NoDup l2 /\ (forall x, In x l1 -> ~ In x l2).
Proof.
  induction l1; simpl.
  - split; [intros; repeat split; auto; constructor|intros (_ & H & _); auto].
  - rewrite NoDup_cons_iff, IHl1, in_app_iff. rewrite NoDup_cons_iff. split.
    + intros (H1 & H2 & H3 & H4). repeat split; auto.
      intros x [->|Hx]; auto.
    + intros ((H1 & H2) & H3 & H4). repeat split; auto.
      intros [|]; auto. apply (H4 a); auto.
Qed.

(** ** Literals *)
Local Open Scope N_scope.

Lemma lxor1 l : N.lxor l 1 = if N.odd l then l - 1 else l + 1.
Proof. destruct l as [|[p|p|]]; reflexivity. Qed.

Lemma lnot_neg l : lnot l = neg l.
Proof. apply lxor1. Qed.

Lemma neg_neg l : neg (neg l) = l.
Proof. rewrite <- !lnot_neg. unfold lnot. rewrite N.lxor_assoc, N.lxor_nilpotent. apply N.lxor_0_r. Qed.

Lemma neg_inj a b : neg a = neg b -> a = b.
Proof. intro H. rewrite <- (neg_neg a), H. apply neg_neg. Qed.

Lemma odd_mod2 l : N.odd l = (l mod 2 =? 1).
Proof.
  pose proof (N.div_mod l 2 ltac:(lia)) as H. pose proof (N.mod_lt l 2 ltac:(lia)) as Hm.
  rewrite H at 1. rewrite N.add_comm, N.odd_add_mul_2.
  assert (l mod 2 = 0 \/ l mod 2 = 1) as [E|E] by lia; rewrite E; reflexivity.
Qed.

Lemma neg_var l : neg l / 2 = l / 2.
Proof.
  unfold neg. pose proof (N.div_mod l 2 ltac:(lia)). pose proof (N.mod_lt l 2 ltac:(lia)).
  pose proof (odd_mod2 l). destruct (N.odd l).
  - assert (l mod 2 = 1) by (destruct (l mod 2 =? 1) eqn:E; [lia|discriminate]).
    symmetry. apply (N.div_unique (l-1) 2 (l/2) 0); lia.
  - assert (l mod 2 = 0) by (destruct (l mod 2 =? 1) eqn:E; [discriminate|lia]).
    symmetry. apply (N.div_unique (l+1) 2 (l/2) 1); lia.
Qed.

Lemma neg_odd l : N.odd (neg l) = negb (N.odd l).
Proof.
  unfold neg. destruct (N.odd l) eqn:E.
  - assert (l <> 0) by (intro; subst; discriminate).
    replace l with (N.succ (l-1)) in E by lia. rewrite N.odd_succ in E.
    simpl. rewrite <- N.negb_even, E. reflexivity.
  - rewrite N.add_1_r, N.odd_succ, <- N.negb_odd, E. reflexivity.
Qed.

Lemma neg_neq l : neg l <> l.
Proof. intro H. pose proof (neg_odd l). rewrite H in H0. destruct (N.odd l); discriminate. Qed.

Lemma lit_eq_var_odd a b : a / 2 = b / 2 -> N.odd a = N.odd b -> a = b.
Proof.
  intros H1 H2. rewrite !odd_mod2 in H2.
  pose proof (N.div_mod a 2 ltac:(lia)). pose proof (N.div_mod b 2 ltac:(lia)).
  pose proof (N.mod_lt a 2 ltac:(lia)). pose proof (N.mod_lt b 2 ltac:(lia)). lia.
Qed.

Lemma same_var_cases a b : a / 2 = b / 2 -> a = b \/ a = neg b.
Proof.
  intro H. destruct (Bool.bool_dec (N.odd a) (N.odd b)).
  - left. apply lit_eq_var_odd; auto.
  - right. apply lit_eq_var_odd; [rewrite neg_var; auto|].
    rewrite neg_odd. destruct (N.odd a), (N.odd b); simpl; congruence.
Qed.

Lemma vidx_div l : vidx l = N.to_nat (l / 2).
Proof. unfold vidx. rewrite N.shiftr_div_pow2. reflexivity. Qed.

Lemma lit_var_div l : lit_var l = l / 2.
Proof. unfold lit_var. rewrite N.shiftr_div_pow2. reflexivity. Qed.

Lemma lit_var_vidx l : N.to_nat (lit_var l) = vidx l.
Proof. reflexivity. Qed.

Lemma vidx_neg l : vidx (neg l) = vidx l.
Proof. rewrite !vidx_div, neg_var. reflexivity. Qed.

Lemma vidx_eq a b : vidx a = vidx b <-> a / 2 = b / 2.
Proof. rewrite !vidx_div. split; intro; [apply N2Nat.inj; auto|congruence]. Qed.

Lemma vidx_cases a b : vidx a = vidx b -> a = b \/ a = neg b.
Proof. rewrite vidx_eq. apply same_var_cases. Qed.

Lemma lit_pos_odd l : lit_is_positive l = N.odd l.
Proof.
  unfold lit_is_positive. change 1 with (N.ones 1). rewrite N.land_ones.
  change (2^1) with 2. rewrite odd_mod2.
  pose proof (N.mod_lt l 2 ltac:(lia)). destruct (l mod 2 =? 1) eqn:E1, (l mod 2 =? 0) eqn:E0;
  simpl; lia.
Qed.

Lemma cidx_inj a b : cidx a = cidx b -> a = b.
Proof. apply N2Nat.inj. Qed.

Lemma cidx_lt l n : (cidx l < 2 * n)%nat <-> (vidx l < n)%nat.
Proof.
  unfold cidx. rewrite vidx_div. pose proof (N.div_mod l 2 ltac:(lia)).
  pose proof (N.mod_lt l 2 ltac:(lia)). lia.
Qed.

Lemma max_code : MAX_CODE = 2147483647. Proof. reflexivity. Qed.
Lemma max_index : MAX_INDEX = 1073741823. Proof. reflexivity. Qed.

Lemma Forall2_len {A B} {R : A -> B -> Prop} {l1 l2} : Forall2 R l1 l2 -> length l1 = length l2.
Proof. induction 1; simpl; auto. Qed.

Lemma Forall2_imp {A B} (R S : A -> B -> Prop) l1 l2 :
  (forall x y, R x y -> S x y) -> Forall2 R l1 l2 -> Forall2 S l1 l2.
Proof. intros H F. induction F; constructor; auto. Qed.
