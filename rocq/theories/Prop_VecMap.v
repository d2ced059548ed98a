(** C68 (maps indexed by keys) and C69 (printing variables and literals). *)
From Coq Require Import NArith ZArith List Bool Arith Lia ZifyN ZifyNat ZifyBool.
From Verif Require Import Model_Base Model_Lit Model_Drat Model_VecMap Spec Spec_Format Proof_Base Proof_Lit Proof_Drat Prop_Lit.
Import ListNotations.

(** The keys of each type, in the order of their indices: 0, 1, 2, ...; and how many
    of them there are. *)
Definition all_keys (n : nat) : list N := map N.of_nat (seq 0 n).
Definition key_limit (t : key_ty) : N :=
  match t with
  | KUsize => 18446744073709551616 | KVar => 1073741824 | KLit => 2147483648
  | KLevel | KTrailIndex => 4294967296
  end.

Lemma key_from t i : (N.of_nat i < key_limit t)%N -> key_from_index t i = Ret (N.of_nat i).
Proof.
  intro H. destruct t; cbn [key_from_index key_limit] in *; auto.
  - unfold var_from_index. change MAX_INDEX with 1073741823%N. destruct (N.leb_spec (N.of_nat i) 1073741823); auto. lia.
  - unfold lit_from_code. change MAX_CODE with 2147483647%N. destruct (N.leb_spec (N.of_nat i) 2147483647); auto. lia.
  - rewrite N.mod_small by auto. reflexivity.
  - rewrite N.mod_small by auto. reflexivity.
Qed.
Lemma key_index_eq t k : key_index t k = N.to_nat k.
Proof. destruct t; reflexivity. Qed.
Lemma vget_upd {A} (a : A) : forall m i j, i < length m -> vget (upd m i a) j = if j =? i then Ret a else vget m j.
Proof.
  unfold vget. induction m as [|x m IH]; intros [|i] [|j] H; cbn in *; try lia; auto. rewrite IH by lia. reflexivity.
Qed.

(** ** C68 *)
(** Keys and indices correspond one to one. *)
Theorem vecmap_key_index (t : key_ty) :
  (forall i, (N.of_nat i < key_limit t)%N -> exists k, key_from_index t i = Ret k /\ key_index t k = i) /\
  (forall k, (k < key_limit t)%N -> key_from_index t (key_index t k) = Ret k).
Proof.
  split.
  - intros i H. exists (N.of_nat i). rewrite key_index_eq. split; [apply key_from; auto|lia].
  - intros k H. rewrite key_index_eq, key_from; [f_equal; lia|lia].
Qed.

(** A value stored under a key is read back under that key and no other; a key that
    is not present panics; a literal reads its variable's entry. *)
Theorem vecmap_get_set {A} (t : key_ty) (m : list A) (k : N) (a : A) :
  (N.to_nat k < length m -> exists m', vm_set t m k a = Ret m' /\ length m' = length m /\
     forall j, vm_get t m' j = if (j =? k)%N then Ret a else vm_get t m j) /\
  (length m <= N.to_nat k -> vm_get t m k = Panic PBounds /\ vm_set t m k a = Panic PBounds) /\
  (forall l, vm_get_lit m l = vm_get KVar m (l / 2)%N).
Proof.
  unfold vm_set, vm_get, vm_get_lit, vset. rewrite !key_index_eq. split; [|split].
  - intro H. destruct (Nat.ltb_spec (N.to_nat k) (length m)); [|lia]. eexists. split; [reflexivity|]. split.
    + clear. revert k. generalize (N.to_nat) as f. intros f k. generalize (f k). clear. induction m as [|x m IH]; intros [|i]; cbn; auto.
    + intro j. rewrite key_index_eq, vget_upd by auto. destruct (Nat.eqb_spec (N.to_nat j) (N.to_nat k)), (N.eqb_spec j k); auto; lia.
  - intro H. unfold vget. rewrite (proj2 (nth_error_None m (N.to_nat k)) H). destruct (Nat.ltb_spec (N.to_nat k) (length m)); [lia|auto].
  - intro l. unfold lit_key_index, vidx. cbn [key_index]. rewrite N.shiftr_div_pow2. reflexivity.
Qed.

(** Calls on the key iterator, and what they do to a list of keys. *)
Inductive iter_op := INext | INth (n : nat) | INextBack | INthBack (n : nat).
Definition iter_call (t : key_ty) (op : iter_op) (r : range) : res (option N * range) :=
  match op with
  | INext => keys_next t r | INth n => keys_nth t r n
  | INextBack => keys_next_back t r | INthBack n => keys_nth_back t r n
  end.
Definition list_call (op : iter_op) (l : list N) : option N * list N :=
  match op with
  | INext => (hd_error l, tl l)
  | INth n => (nth_error l n, skipn (S n) l)
  | INextBack => (hd_error (rev l), rev (tl (rev l)))
  | INthBack n => (nth_error (rev l) n, rev (skipn (S n) (rev l)))
  end.
Fixpoint iter_calls (t : key_ty) (ops : list iter_op) (r : range) : res (list (option N) * range) :=
  match ops with
  | [] => Ret ([], r)
  | op :: ops' => let* (o, r1) := iter_call t op r in let* (os, r2) := iter_calls t ops' r1 in Ret (o :: os, r2)
  end.
Fixpoint list_calls (ops : list iter_op) (l : list N) : list (option N) * list N :=
  match ops with
  | [] => ([], l)
  | op :: ops' => let '(o, l1) := list_call op l in let '(os, l2) := list_calls ops' l1 in (o :: os, l2)
  end.

Definition range_keys (r : range) : list N := map N.of_nat (seq (rg_start r) (rg_end r - rg_start r)).
Lemma seq_nth_error : forall n s i, i < n -> nth_error (seq s n) i = Some (s + i).
Proof. intros n s i H. rewrite (nth_error_nth' _ 0) by (rewrite seq_length; auto). rewrite seq_nth by auto. reflexivity. Qed.
Lemma skipn_seq k : forall s n, skipn k (seq s n) = seq (s + k) (n - k).
Proof. induction k as [|k IH]; intros s [|n]; cbn [skipn seq]; rewrite ?Nat.add_0_r, ?Nat.sub_0_r; auto. rewrite IH. f_equal; lia. Qed.
Lemma rev_skipn {A} k (l : list A) : rev (skipn k (rev l)) = firstn (length l - k) l.
Proof. rewrite skipn_rev, rev_involutive. reflexivity. Qed.
Lemma firstn_seq k : forall s n, firstn k (seq s n) = seq s (Nat.min k n).
Proof. induction k as [|k IH]; intros s [|n]; cbn [firstn seq Nat.min]; auto. rewrite IH. reflexivity. Qed.
Lemma call_refines t op r : (forall k, In k (range_keys r) -> (k < key_limit t)%N) ->
  exists r', iter_call t op r = Ret (fst (list_call op (range_keys r)), r') /\ range_keys r' = snd (list_call op (range_keys r)).
Proof.
  intro H. destruct r as [s e]. unfold range_keys in *. cbn [rg_start rg_end] in *.
  assert (K : forall i, s <= i < e -> key_from_index t i = Ret (N.of_nat i)).
  { intros i Hi. apply key_from. apply H. apply in_map. apply in_seq. lia. }
  assert (NB : forall n, fst (list_call (INthBack n) (map N.of_nat (seq s (e - s)))) = if n <? e - s then Some (N.of_nat (e - n - 1)) else None).
  { intro n. cbn [list_call fst]. rewrite <- map_rev. destruct (Nat.ltb_spec n (e - s)) as [G|G].
    - apply map_nth_error. rewrite (nth_error_nth' _ 0) by (rewrite rev_length, seq_length; auto). rewrite rev_nth by (rewrite seq_length; auto). rewrite seq_length, seq_nth by lia. f_equal. lia.
    - apply nth_error_None. rewrite map_length, rev_length, seq_length. lia. }
  assert (NBs : forall n, snd (list_call (INthBack n) (map N.of_nat (seq s (e - s)))) = map N.of_nat (seq s (e - s - S n))).
  { intro n. cbn [list_call snd]. rewrite rev_skipn, firstn_map, firstn_seq, map_length, seq_length. f_equal. f_equal. lia. }
  assert (NF : forall n, nth_error (map N.of_nat (seq s (e - s))) n = if n <? e - s then Some (N.of_nat (s + n)) else None).
  { intro n. destruct (Nat.ltb_spec n (e - s)) as [G|G]; [apply map_nth_error, seq_nth_error; auto|]. apply nth_error_None. rewrite map_length, seq_length. lia. }
  destruct op as [|n| |n]; cbn [iter_call].
  - unfold keys_next, range_next. cbn [rg_start rg_end]. specialize (NF 0). cbn [list_call fst snd].
    replace (hd_error (map N.of_nat (seq s (e - s)))) with (nth_error (map N.of_nat (seq s (e - s))) 0) by (destruct (map _ _); reflexivity). rewrite NF.
    change (tl (map N.of_nat (seq s (e - s)))) with (skipn 1 (map N.of_nat (seq s (e - s)))). rewrite skipn_map, skipn_seq.
    destruct (Nat.ltb_spec s e), (Nat.ltb_spec 0 (e - s)); try lia; cbn [key_opt].
    + rewrite K by lia. cbn [bind]. eexists. split; [do 3 f_equal; lia|]. cbn [rg_start rg_end]. do 2 f_equal; lia.
    + eexists. split; [reflexivity|]. cbn [rg_start rg_end]. replace (e - s) with 0 by lia. reflexivity.
  - unfold keys_nth, range_nth. cbn [rg_start rg_end list_call fst snd]. rewrite NF, skipn_map, skipn_seq.
    destruct (Nat.ltb_spec (s + n) e), (Nat.ltb_spec n (e - s)); try lia; cbn [key_opt].
    + rewrite K by lia. cbn [bind]. eexists. split; [reflexivity|]. cbn [rg_start rg_end]. do 2 f_equal; lia.
    + eexists. split; [reflexivity|]. cbn [rg_start rg_end]. replace (e - e) with 0 by lia. replace (e - s - S n) with 0 by lia. reflexivity.
  - specialize (NB 0). specialize (NBs 0). unfold keys_next_back, range_next_back. cbn [rg_start rg_end]. cbn [list_call fst snd] in *.
    replace (hd_error (rev (map N.of_nat (seq s (e - s))))) with (nth_error (rev (map N.of_nat (seq s (e - s)))) 0) by (destruct (rev _); reflexivity). rewrite NB.
    change (tl (rev (map N.of_nat (seq s (e - s))))) with (skipn 1 (rev (map N.of_nat (seq s (e - s))))). rewrite NBs.
    destruct (Nat.ltb_spec s e), (Nat.ltb_spec 0 (e - s)); try lia; cbn [key_opt].
    + rewrite K by lia. cbn [bind]. eexists. split; [do 3 f_equal; lia|]. cbn [rg_start rg_end]. do 2 f_equal; lia.
    + eexists. split; [reflexivity|]. cbn [rg_start rg_end]. replace (e - s) with 0 by lia. reflexivity.
  - specialize (NB n). specialize (NBs n). unfold keys_nth_back, range_nth_back, range_len. cbn [rg_start rg_end]. rewrite NB, NBs.
    destruct (Nat.ltb_spec n (e - s)); cbn [key_opt].
    + rewrite K by lia. cbn [bind]. eexists. split; [reflexivity|]. cbn [rg_start rg_end]. do 2 f_equal; lia.
    + eexists. split; [reflexivity|]. cbn [rg_start rg_end]. replace (s - s) with 0 by lia. replace (e - s - S n) with 0 by lia. reflexivity.
Qed.
Lemma in_rev_tail {A} (x : A) n l : In x (rev (skipn n (rev l))) -> In x l.
Proof. rewrite rev_skipn. intro H. rewrite <- (firstn_skipn (length l - n) l). apply in_or_app; auto. Qed.
Lemma in_skipn {A} (x : A) n l : In x (skipn n l) -> In x l.
Proof. intro H. rewrite <- (firstn_skipn n l). apply in_or_app; auto. Qed.
Lemma call_shrinks op l k : In k (snd (list_call op l)) -> In k l.
Proof.
  destruct op; cbn [list_call snd].
  - change (tl l) with (skipn 1 l). apply in_skipn.
  - apply in_skipn.
  - change (tl (rev l)) with (skipn 1 (rev l)). apply in_rev_tail.
  - apply in_rev_tail.
Qed.

(** The key iterator yields the keys of the map in the order of their indices, from
    both ends, under every sequence of calls; [last], [count] and [size_hint] tell
    what is left. *)
Theorem vecmap_keys {A} (t : key_ty) (m : list A) (ops : list iter_op) :
  (N.of_nat (length m) <= key_limit t)%N ->
  let '(results, rest) := list_calls ops (all_keys (length m)) in
  exists r, iter_calls t ops (vm_keys m) = Ret (results, r) /\
    keys_count r = length rest /\ keys_size_hint r = (length rest, Some (length rest)) /\
    keys_last t r = Ret (hd_error (rev rest)).
Proof.
  intro H. assert (E : all_keys (length m) = range_keys (vm_keys m)) by (unfold all_keys, range_keys, vm_keys; cbn; rewrite Nat.sub_0_r; reflexivity). rewrite E.
  assert (L : forall k, In k (range_keys (vm_keys m)) -> (k < key_limit t)%N).
  { rewrite <- E. intros k Hk. apply in_map_iff in Hk as (i & <- & Hi). apply in_seq in Hi. lia. }
  clear H E. revert L. generalize (vm_keys m). induction ops as [|op ops IH]; intros r L; cbn [list_calls iter_calls].
  - exists r. split; auto. assert (X : range_len r = length (range_keys r)) by (unfold range_keys, range_len; rewrite map_length, seq_length; reflexivity).
    unfold keys_count, keys_size_hint. rewrite X. split; auto. split; auto.
    destruct (call_refines t INextBack r L) as (r' & E & _). cbn [iter_call list_call fst] in E. unfold keys_next_back in E. unfold keys_last. rewrite E. reflexivity.
  - destruct (call_refines t op r L) as (r' & E1 & E2). rewrite E1. cbn [bind]. destruct (list_call op (range_keys r)) as [o l1] eqn:Ec. cbn [fst snd] in *. subst l1.
    assert (L' : forall k, In k (range_keys r') -> (k < key_limit t)%N). { intros k Hk. apply L, (call_shrinks op). rewrite Ec. exact Hk. }
    specialize (IH r' L'). destruct (list_calls ops (range_keys r')) as [os l2]. destruct IH as (r2 & I1 & I2). exists r2. rewrite I1. cbn [bind]. auto.
Qed.

(** With more entries than keys there are, variables and literals panic. *)
Theorem vecmap_keys_panic (t : key_ty) (i : nat) : t = KVar \/ t = KLit -> (key_limit t <= N.of_nat i)%N -> key_from_index t i = Panic PAssert.
Proof.
  intros [->| ->] H; cbn [key_from_index key_limit] in *.
  - unfold var_from_index. change MAX_INDEX with 1073741823%N. destruct (N.leb_spec (N.of_nat i) 1073741823); auto. lia.
  - unfold lit_from_code. change MAX_CODE with 2147483647%N. destruct (N.leb_spec (N.of_nat i) 2147483647); auto. lia.
Qed.

Example vecmap_keys_example : iter_calls KLit [INext; INthBack 1; INth 1; INext; INextBack; INext] (vm_keys [true; false; true; true; false; true]) =
  Ret ([Some 0; Some 4; Some 2; Some 3; None; None]%N, mkRange 4 4) /\
  list_calls [INext; INthBack 1; INth 1; INext; INextBack; INext] (all_keys 6) = ([Some 0; Some 4; Some 2; Some 3; None; None]%N, []).
Proof. split; reflexivity. Qed.
Example vecmap_get_set_example : vm_set KVar [10; 20; 30] 1%N 99 = Ret [10; 99; 30] /\ vm_get_lit [10; 99; 30] 3%N = Ret 99.
Proof. split; reflexivity. Qed.

(** ** C69 *)
(** A literal prints as its DIMACS number in decimal: the text reads back as that
    number, which determines the literal; likewise a variable. *)
Theorem display_lit (l : N) : valid l ->
  read_int (lit_display l) = Some (dimacs l) /\
  (forall b, In b (lit_display l) -> is_space b = false) /\
  (forall l', valid l' -> lit_display l' = lit_display l -> l' = l).
Proof.
  intro H. unfold lit_display. destruct (lit_dimacs_roundtrip l H) as [R E]. split; [rewrite ascii_read, E; reflexivity|]. split; [intros b; apply ascii_nospace|].
  intros l' H' X. destruct (lit_dimacs_roundtrip l' H') as [R' _]. apply (f_equal read_int) in X. rewrite !ascii_read in X. inversion X as [X']. rewrite X' in R'. congruence.
Qed.
Theorem display_var (v : N) : (v < 1073741824)%N ->
  read_int (var_display v) = Some (Z.of_N v + 1)%Z /\
  (forall v', (v' < 1073741824)%N -> var_display v' = var_display v -> v' = v) /\
  var_display v = lit_display (2 * v + 1) /\ lit_display (2 * v) = 45%N :: var_display v.
Proof.
  intro H. unfold var_display, lit_display. split; [rewrite ascii_read; unfold var_dimacs; f_equal; lia|]. split.
  { intros v' H' X. apply (f_equal read_int) in X. rewrite !ascii_read in X. inversion X as [X']. unfold var_dimacs in X'. lia. }
  assert (E1 : lit_dimacs (2 * v + 1) = var_dimacs v).
  { rewrite (proj2 (lit_dimacs_roundtrip (2 * v + 1) ltac:(unfold valid; lia))). unfold dimacs, var_dimacs. replace (N.odd (2 * v + 1)) with true by (symmetry; rewrite N.add_comm, N.odd_add_mul_2; reflexivity).
    replace ((2 * v + 1) / 2)%N with v by (rewrite N.mul_comm, N.div_add_l by lia; cbn; lia). lia. }
  assert (E2 : lit_dimacs (2 * v) = (- var_dimacs v)%Z).
  { rewrite (proj2 (lit_dimacs_roundtrip (2 * v) ltac:(unfold valid; lia))). unfold dimacs, var_dimacs. replace (N.odd (2 * v)) with false by (symmetry; rewrite N.odd_mul; reflexivity).
    replace ((2 * v) / 2)%N with v by (rewrite N.mul_comm, N.div_mul by lia; reflexivity). lia. }
  rewrite E1, E2. split; auto. unfold ascii_digits. unfold var_dimacs. destruct (Z.ltb_spec (- Z.of_N (v + 1)) 0); [|lia]. destruct (Z.ltb_spec (Z.of_N (v + 1)) 0); [lia|].
  cbn [app]. replace (Z.abs_N (- Z.of_N (v + 1))) with (Z.abs_N (Z.of_N (v + 1))) by lia. reflexivity.
Qed.
Example display_example : lit_display 24 = [45; 49; 51]%N /\ lit_display 25 = [49; 51]%N /\ var_display 12 = [49; 51]%N.
Proof. repeat split. Qed.

Print Assumptions vecmap_key_index.
Print Assumptions vecmap_get_set.
Print Assumptions vecmap_keys.
Print Assumptions vecmap_keys_panic.
Print Assumptions display_lit.
Print Assumptions display_var.
