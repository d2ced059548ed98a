(** C84: heap operations take logarithmic time. *)
From Coq Require Import NArith List Bool Arith Lia ZifyN ZifyNat ZifyBool.
From Verif Require Import Model_Base Model_Heap Model_Cost Model_HeapCost Proof_Base Proof_Cost.
Import ListNotations.

(** ** The counter changes no result *)
Lemma er_less {B} a b (f : bool -> res (B * nat)) : erase (bindC (less_n a b) f) = erase (f (a <? b)%N).
Proof. unfold less_n, bindC, units. cbn [bind]. destruct (f (a <? b)%N) as [[x k]| |]; reflexivity. Qed.
Lemma er_rootl fuel : forall h v p, erase (root_loop_n fuel h v p) = root_loop fuel h v p.
Proof.
  induction fuel as [|f IH]; intros h v [|p]; try reflexivity. cbn [root_loop_n root_loop]. apply er_bind; [apply er_units|]. intro pv.
  rewrite er_less. destruct (pv <? v)%N; [|reflexivity]. apply er_bind; [apply er_units|]. intro. apply IH.
Qed.
Lemma er_root h p : erase (move_towards_root_n h p) = move_towards_root h p.
Proof. apply er_bind; [apply er_units|]. intro. apply er_rootl. Qed.
Lemma er_leavesl fuel : forall h v p, erase (leaves_loop_n fuel h v p) = leaves_loop fuel h v p.
Proof.
  induction fuel as [|f IH]; intros h v p; [reflexivity|]. cbn [leaves_loop_n leaves_loop]. apply er_bind.
  - destruct (Nat.ltb _ _); [|reflexivity]. apply er_bind; [apply er_units|]. intro lv. rewrite er_less. destruct (v <? lv)%N; reflexivity.
  - intros [sp sv]. apply er_bind.
    + destruct (Nat.ltb _ _); [|reflexivity]. apply er_bind; [apply er_units|]. intro rv. rewrite er_less. destruct (sv <? rv)%N; reflexivity.
    + intro q. destruct (Nat.eqb q p); [reflexivity|]. apply er_bind; [apply er_units|]. intro. apply IH.
Qed.
Lemma er_leaves h p : erase (move_towards_leaves_n h p) = move_towards_leaves h p.
Proof. apply er_bind; [apply er_units|]. intro. apply er_leavesl. Qed.
Lemma er_dequeue h i : erase (dequeue_n h i) = dequeue h i.
Proof.
  apply er_bind; [apply er_units|]. intro p. destruct (pos_in h p) as [pos|]; [|reflexivity]. cbv zeta. destruct (length (h_heap h) - 1 =? pos).
  - apply er_bind; [apply er_units|]. reflexivity.
  - apply er_bind; [apply er_units|]. intro h1. apply er_bind; [apply er_units|]. intro h2. apply er_bind; [apply er_units|]. intro mv.
    apply er_bind; [apply er_units|]. intro rm. rewrite er_less. destruct (rm <? mv)%N; [apply er_leaves|apply er_root].
Qed.
Lemma er_enqueue h i : erase (enqueue_n h i) = enqueue h i.
Proof.
  apply er_bind; [apply er_units|]. intro p. destruct (pos_in h p); [reflexivity|]. apply er_bind; [apply er_units|]. intro. apply er_root.
Qed.
Lemma er_pop h : erase (pop_max_n h) = pop_max h.
Proof.
  unfold pop_max_n, pop_max. destruct (h_heap h) as [|i r]; [reflexivity|]. cbv zeta. destruct (length (i :: r) - 1 =? 0).
  - apply er_bind; [apply er_units|]. reflexivity.
  - apply er_bind; [apply er_units|]. intro h1. apply er_bind; [apply er_units|]. intro h2. apply er_bind; [apply er_leaves|]. reflexivity.
Qed.
Lemma er_increase h i f : erase (increase_n h i f) = increase h i f.
Proof.
  apply er_bind; [apply er_units|]. intro v. apply er_bind; [apply er_units|]. intro vs. apply er_bind; [apply er_units|]. intro p.
  destruct (pos_in _ p); [apply er_root|reflexivity].
Qed.
Lemma erase_iff {A} (x : res (A * nat)) r : erase x = Ret r <-> exists k, x = Ret (r, k).
Proof.
  unfold erase. destruct x as [[a k]| |]; cbn [bind]; split; try discriminate.
  - intro E. inversion E; eauto.
  - intros (w & E). inversion E; auto.
  - intros (w & E). discriminate.
  - intros (w & E). discriminate.
Qed.

(** ** The bounds *)
Lemma vset_length {A} (v : list A) i x w : vset v i x = Ret w -> length w = length v.
Proof. intro E. apply vset_ok in E as [_ ->]. apply upd_length. Qed.
Lemma vswap_length {A} (v : list A) a b w : vswap v a b = Ret w -> length w = length v.
Proof.
  unfold vswap. intro E. destruct (vget v a); try discriminate. cbn [bind] in E. destruct (vget v b); try discriminate. cbn [bind] in E.
  destruct (vset v a a1) as [v1| |] eqn:E1; try discriminate. cbn [bind] in E. apply vset_length in E, E1. lia.
Qed.
Lemma swap_length h a b h' : heap_swap h a b = Ret h' -> length (h_heap h') = length (h_heap h).
Proof.
  unfold heap_swap. intro E. destruct (vswap (h_heap h) a b) as [hp| |] eqn:E1; try discriminate. cbn [bind] in E.
  destruct (vget hp a); try discriminate. cbn [bind] in E. destruct (vget hp b); try discriminate. cbn [bind] in E.
  destruct (vswap (h_pos h) _ _); try discriminate. cbn [bind] in E. inversion E. cbn. eapply vswap_length; eauto.
Qed.
Lemma clear_length h i h' : heap_clear_pos h i = Ret h' -> length (h_heap h') = length (h_heap h).
Proof. unfold heap_clear_pos. destruct (vset _ _ _); try discriminate. cbn [bind]. intro E. inversion E. reflexivity. Qed.
Lemma pop_length h : length (h_heap (heap_pop_last h)) = length (h_heap h) - 1.
Proof. cbn. induction (h_heap h) as [|x [|y l] IH]; auto. cbn [removelast length] in *. lia. Qed.
Lemma pos_in_lt h p q : pos_in h p = Some q -> q < length (h_heap h).
Proof. destruct p as [p|]; [|discriminate]. unfold pos_in. destruct (Nat.ltb_spec p (length (h_heap h))); [|discriminate]. intro E. inversion E; subst; auto. Qed.
Lemma log2_half a : Nat.log2 (S (S a)) = S (Nat.log2 (S (a / 2))).
Proof.
  destruct (Nat.Even_or_Odd a) as [[b ->]|[b ->]].
  - replace (2 * b / 2) with b by (symmetry; rewrite Nat.mul_comm; apply Nat.div_mul; lia). replace (S (S (2 * b))) with (2 * S b) by lia. apply Nat.log2_double; lia.
  - replace ((2 * b + 1) / 2) with b by (symmetry; rewrite Nat.mul_comm, Nat.add_comm, Nat.div_add; [reflexivity|lia]).
    replace (S (S (2 * b + 1))) with (2 * S b + 1) by lia. apply Nat.log2_succ_double; lia.
Qed.
Lemma less_ret a b c k : less_n a b = Ret (c, k) -> c = (a <? b)%N /\ k = 1.
Proof. intro E. inversion E. auto. Qed.

Lemma root_log fuel : forall h v p h' k, root_loop_n fuel h v p = Ret (h', k) -> k <= 2 * Nat.log2 (S p).
Proof.
  induction fuel as [|f IH]; intros h v [|p] h' k E; cbn [root_loop_n] in E; [inversion E; lia|discriminate E|inversion E; lia|].
  replace (S p - 1) with p in E by lia. rewrite log2_half.
  apply bindC_ret in E as (pv & k1 & k2 & E1 & E & ->). apply units_ret in E1 as [_ ->].
  apply bindC_ret in E as (c & k3 & k4 & E1 & E & ->). apply less_ret in E1 as [_ ->]. destruct c; [|inversion E; lia].
  apply bindC_ret in E as (h1 & k5 & k6 & E1 & E & ->). apply units_ret in E1 as [_ ->]. apply IH in E. lia.
Qed.
Lemma root_log' h p h' k : move_towards_root_n h p = Ret (h', k) -> k <= 2 * Nat.log2 (S p).
Proof. intro E. apply bindC_ret in E as (v & k1 & k2 & E1 & E & ->). apply units_ret in E1 as [_ ->]. apply root_log in E. lia. Qed.
Lemma leaves_log fuel : forall h v p h' k, p < length (h_heap h) -> leaves_loop_n fuel h v p = Ret (h', k) ->
  k + 3 * Nat.log2 (S p) <= 3 * Nat.log2 (length (h_heap h)).
Proof.
  induction fuel as [|f IH]; intros h v p h' k Hp E; [discriminate|]. cbn [leaves_loop_n] in E.
  apply bindC_ret in E as ([sp sv] & k1 & k2 & E1 & E & ->). apply bindC_ret in E as (q & k3 & k4 & E2 & E & ->).
  set (L := length (h_heap h)) in *.
  assert (L0 : Nat.log2 (S p) <= Nat.log2 L) by (apply Nat.log2_le_mono; lia).
  assert (C1 : Nat.log2 (S (p * 2 + 1)) = S (Nat.log2 (S p))).
  { replace (S (p * 2 + 1)) with (2 * S p) by lia. apply Nat.log2_double; lia. }
  assert (C2 : Nat.log2 (S (p * 2 + 2)) = S (Nat.log2 (S p))).
  { replace (S (p * 2 + 2)) with (2 * S p + 1) by lia. apply Nat.log2_succ_double; lia. }
  assert (Q1 : k1 <= 1 /\ (k1 <> 0 -> S (Nat.log2 (S p)) <= Nat.log2 L) /\ (sp = p \/ sp = p * 2 + 1 /\ sp < L)).
  { destruct (Nat.ltb_spec (p * 2 + 1) L) as [G|G]; [|inversion E1; subst; repeat split; lia].
    assert (S (Nat.log2 (S p)) <= Nat.log2 L) by (rewrite <- C1; apply Nat.log2_le_mono; lia).
    apply bindC_ret in E1 as (lv & j1 & j2 & A1 & E1 & ->). apply units_ret in A1 as [_ ->].
    apply bindC_ret in E1 as (c & j3 & j4 & A1 & E1 & ->). apply less_ret in A1 as [_ ->]. destruct c; inversion E1; subst; repeat split; lia. }
  assert (Q2 : k3 <= 1 /\ (k3 <> 0 -> S (Nat.log2 (S p)) <= Nat.log2 L) /\ (q = sp \/ q = p * 2 + 2 /\ q < L)).
  { destruct (Nat.ltb_spec (p * 2 + 2) L) as [G|G]; [|inversion E2; subst; repeat split; lia].
    assert (S (Nat.log2 (S p)) <= Nat.log2 L) by (rewrite <- C1; apply Nat.log2_le_mono; lia).
    apply bindC_ret in E2 as (lv & j1 & j2 & A1 & E2 & ->). apply units_ret in A1 as [_ ->].
    apply bindC_ret in E2 as (c & j3 & j4 & A1 & E2 & ->). apply less_ret in A1 as [_ ->]. destruct c; inversion E2; subst; repeat split; lia. }
  destruct Q1 as (Q1 & Q1' & Q1''), Q2 as (Q2 & Q2' & Q2'').
  destruct (Nat.eqb_spec q p) as [->|N]; [inversion E; subst; lia|].
  apply bindC_ret in E as (h1 & k5 & k6 & A1 & E & ->). apply units_ret in A1 as [A1 ->]. apply swap_length in A1.
  apply IH in E; [|rewrite A1; fold L; lia]. rewrite A1 in E. fold L in E.
  assert (Nat.log2 (S q) = S (Nat.log2 (S p))) by (destruct Q2'' as [->|[-> _]]; [destruct Q1'' as [->|[-> _]]; [congruence|auto]|auto]). lia.
Qed.
Lemma leaves_log' h p h' k : p < length (h_heap h) -> move_towards_leaves_n h p = Ret (h', k) -> k <= 3 * Nat.log2 (length (h_heap h)).
Proof. intros Hp E. apply bindC_ret in E as (v & k1 & k2 & E1 & E & ->). apply units_ret in E1 as [_ ->]. apply leaves_log in E; [lia|auto]. Qed.

(** ** C84 *)
(** Counting changes no result. *)
Theorem counted_heap h :
  (forall i r, enqueue h i = Ret r <-> exists work, enqueue_n h i = Ret (r, work)) /\
  (forall i r, dequeue h i = Ret r <-> exists work, dequeue_n h i = Ret (r, work)) /\
  (forall i f r, increase h i f = Ret r <-> exists work, increase_n h i f = Ret (r, work)) /\
  (forall r, pop_max h = Ret r <-> exists work, pop_max_n h = Ret (r, work)).
Proof.
  split; [intros; rewrite <- er_enqueue; apply erase_iff|]. split; [intros; rewrite <- er_dequeue; apply erase_iff|].
  split; [intros; rewrite <- er_increase; apply erase_iff|]. intros; rewrite <- er_pop; apply erase_iff.
Qed.

(** Comparisons and exchanges made by one operation on a heap with [n] entries,
    whatever its state. *)
Theorem heap_logarithmic h :
  let n := length (h_heap h) in
  (forall i r work, enqueue_n h i = Ret (r, work) -> work <= 2 * Nat.log2 (n + 1)) /\
  (forall i f r work, increase_n h i f = Ret (r, work) -> work <= 2 * Nat.log2 n) /\
  (forall r work, pop_max_n h = Ret (r, work) -> work <= 3 * Nat.log2 n + 1) /\
  (forall i r work, dequeue_n h i = Ret (r, work) -> work <= 3 * Nat.log2 n + 2).
Proof.
  cbv zeta. split; [|split; [|split]].
  - intros i r w E. apply bindC_ret in E as (p & k1 & k2 & E1 & E & ->). apply units_ret in E1 as [_ ->].
    destruct (pos_in h p); [inversion E; lia|]. apply bindC_ret in E as (ps & k3 & k4 & E1 & E & ->). apply units_ret in E1 as [_ ->].
    apply root_log' in E. rewrite Nat.add_1_r. lia.
  - intros i f r w E. apply bindC_ret in E as (v & k1 & k2 & E1 & E & ->). apply units_ret in E1 as [_ ->].
    apply bindC_ret in E as (vs & k3 & k4 & E1 & E & ->). apply units_ret in E1 as [_ ->].
    apply bindC_ret in E as (p & k5 & k6 & E1 & E & ->). apply units_ret in E1 as [_ ->].
    destruct (pos_in _ p) as [q|] eqn:Eq; [|inversion E; lia]. apply pos_in_lt in Eq. cbn [h_heap] in Eq. apply root_log' in E.
    pose proof (Nat.log2_le_mono (S q) (length (h_heap h)) ltac:(lia)). lia.
  - intros r w E. unfold pop_max_n in E. destruct (h_heap h) as [|i t] eqn:Eh; [inversion E; lia|]. rewrite <- Eh in *. clear t Eh. cbv zeta in E.
    destruct (Nat.eqb_spec (length (h_heap h) - 1) 0) as [Z|Z]; [apply bindC_ret in E as (h1 & k1 & k2 & E1 & E & ->); apply units_ret in E1 as [_ ->]; inversion E; lia|].
    apply bindC_ret in E as (h1 & k1 & k2 & E1 & E & ->). apply units_ret in E1 as [E1 ->]. apply swap_length in E1.
    apply bindC_ret in E as (h2 & k3 & k4 & E2 & E & ->). apply units_ret in E2 as [E2 ->]. apply clear_length in E2.
    apply bindC_ret in E as (h3 & k5 & k6 & E3 & E & ->). inversion E; subst. pose proof (pop_length h2) as PL.
    apply leaves_log' in E3; [|rewrite PL; lia]. rewrite PL, E2, E1 in E3.
    pose proof (Nat.log2_le_mono (length (h_heap h) - 1) (length (h_heap h)) ltac:(lia)). lia.
  - intros i r w E. apply bindC_ret in E as (p & k1 & k2 & E1 & E & ->). apply units_ret in E1 as [_ ->].
    destruct (pos_in h p) as [q|] eqn:Eq; [|inversion E; lia]. apply pos_in_lt in Eq. cbv zeta in E.
    destruct (Nat.eqb_spec (length (h_heap h) - 1) q) as [Z|Z]; [apply bindC_ret in E as (h1 & k1 & k3 & E1 & E & ->); apply units_ret in E1 as [_ ->]; inversion E; lia|].
    apply bindC_ret in E as (h1 & j1 & j2 & E1 & E & ->). apply units_ret in E1 as [E1 ->]. apply swap_length in E1.
    apply bindC_ret in E as (h2 & j3 & j4 & E2 & E & ->). apply units_ret in E2 as [E2 ->]. apply clear_length in E2.
    apply bindC_ret in E as (mv & j5 & j6 & E3 & E & ->). apply units_ret in E3 as [_ ->].
    apply bindC_ret in E as (rm & j7 & j8 & E3 & E & ->). apply units_ret in E3 as [_ ->].
    apply bindC_ret in E as (c & j9 & j10 & E3 & E & ->). apply less_ret in E3 as [_ ->].
    pose proof (pop_length h2) as PL. pose proof (Nat.log2_le_mono (length (h_heap h) - 1) (length (h_heap h)) ltac:(lia)).
    destruct c.
    + apply leaves_log' in E; [|rewrite PL; lia]. rewrite PL, E2, E1 in E. lia.
    + apply root_log' in E. pose proof (Nat.log2_le_mono (S q) (length (h_heap h)) ltac:(lia)). lia.
Qed.

(** Eight entries, 0 to 7, enqueued in increasing order of their values: the last
    one moves from the bottom to the root, and removing the maximum moves an entry
    back down. *)
Definition heap8 : heap := match foldM enqueue (seq 0 8) (mkHeap [1; 2; 3; 4; 5; 6; 7; 8]%N (repeat None 8) []) with Ret h => h | _ => heap_empty end.
Example heap_logarithmic_example :
  length (h_heap heap8) = 8 /\ hd_error (h_heap heap8) = Some 7 /\
  match pop_max_n heap8 with Ret ((Some 7, h), 7) => length (h_heap h) = 7 | _ => False end /\
  match increase_n heap8 0 (fun _ => 9%N) with Ret (h, 6) => hd_error (h_heap h) = Some 0 | _ => False end.
Proof. vm_compute. auto. Qed.

Print Assumptions counted_heap.
Print Assumptions heap_logarithmic.
