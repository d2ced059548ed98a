(** The addressable heap for any type of values. *)
From Coq Require Import NArith List Bool Arith Lia ZifyN ZifyNat ZifyBool Permutation.
From Verif Require Import Model_Base Model_Heap Model_HeapAny Spec Proof_Base Proof_Heap.
Import ListNotations.

Section Values.
Context {V : Type} (vlt vgt : V -> V -> bool) (d : V).
Local Notation g_heap := (@g_heap V).
Local Notation g_root_loop := (g_root_loop vlt).
Local Notation g_move_towards_root := (g_move_towards_root vlt).
Local Notation g_leaves_loop := (g_leaves_loop vlt).
Local Notation g_move_towards_leaves := (g_move_towards_leaves vlt).
Local Notation g_enqueue := (g_enqueue vlt).
Local Notation g_dequeue := (g_dequeue vlt vgt).
Local Notation g_pop_max := (g_pop_max vlt).
Local Notation g_heap_resize := (g_heap_resize vlt vgt).
Local Notation g_heap_resize_enqueued := (g_heap_resize_enqueued vlt vgt).
Local Notation g_increase := (g_increase vlt).

Definition Lawful : Prop :=
  (forall a b, vlt a b = true -> vlt b a = false) /\
  (forall a b c, vlt b a = false -> vlt c b = false -> vlt c a = false).
(** Not less, if the comparison is lawful; no condition otherwise. *)
Definition vle (a b : V) : Prop := Lawful -> vlt b a = false.
Lemma vle_trans a b c : vle a b -> vle b c -> vle a c.
Proof. unfold vle. intros A B L. destruct L as [L1 L2]. apply (L2 a b c); [apply A|apply B]; split; assumption. Qed.
Lemma vle_of a b : vlt b a = false -> vle a b.
Proof. intros A _. exact A. Qed.
Lemma vlt_le a b : vlt a b = true -> vle a b.
Proof. intros A [L _]. auto. Qed.
Lemma vle_refl a : vle a a.
Proof. intros [L _]. destruct (vlt a a) eqn:E; auto. rewrite (L _ _ E) in E. discriminate. Qed.
Ltac ord := solve [auto using vle_of, vlt_le, vle_refl | eapply vle_trans; eauto using vle_of, vlt_le].

(** Structural invariant: positions and g_heap are inverse to each other. *)
Record g_HS (h : g_heap) : Prop := {
  g_hs_len : length (g_h_pos h) = length (g_h_values h);
  g_hs_pos : forall p i, nth_error (g_h_heap h) p = Some i -> nth_error (g_h_pos h) i = Some (Some p);
  g_hs_heap : forall i p, nth_error (g_h_pos h) i = Some (Some p) -> nth_error (g_h_heap h) p = Some i
}.

Definition g_idx (h : g_heap) (p : nat) : nat := nth p (g_h_heap h) 0.
Definition g_hval (h : g_heap) (p : nat) : V := nth (g_idx h p) (g_h_values h) d.
Definition g_hlen (h : g_heap) : nat := length (g_h_heap h).
Definition g_HO (h : g_heap) : Prop :=
  forall p, 0 < p -> p < g_hlen h -> vle (g_hval h p) (g_hval h (par p)).

Lemma g_hs_nodup h : g_HS h -> NoDup (g_h_heap h).
Proof.
  intro H. apply NoDup_nth_error. intros i j Hi E.
  destruct (nth_error (g_h_heap h) i) eqn:E1.
  - symmetry in E. apply (g_hs_pos h H) in E1. apply (g_hs_pos h H) in E. congruence.
  - apply nth_error_None in E1. lia.
Qed.

Lemma g_idx_nth h p : p < g_hlen h -> nth_error (g_h_heap h) p = Some (g_idx h p).
Proof. apply nth_error_nth'. Qed.

Lemma g_hs_idx_pos h p : g_HS h -> p < g_hlen h -> nth_error (g_h_pos h) (g_idx h p) = Some (Some p).
Proof. intros H Hp. apply (g_hs_pos h H). apply g_idx_nth; auto. Qed.

Lemma g_hs_idx_lt h p : g_HS h -> p < g_hlen h -> g_idx h p < length (g_h_values h).
Proof.
  intros H Hp. rewrite <- (g_hs_len h H). apply nth_error_Some. rewrite (g_hs_idx_pos h p H Hp). discriminate.
Qed.

Lemma g_value_at_ok h p : g_HS h -> p < g_hlen h -> g_value_at h p = Ret (g_hval h p).
Proof.
  intros H Hp. unfold g_value_at. rewrite (proj2 (vget_ok _ _ _) (g_idx_nth h p Hp)). simpl.
  apply vget_nth. apply g_hs_idx_lt; auto.
Qed.

Lemma g_heap_swap_ok h a b : g_HS h -> a < g_hlen h -> b < g_hlen h ->
  exists h', g_heap_swap h a b = Ret h' /\ g_HS h' /\ g_h_values h' = g_h_values h /\
    g_hlen h' = g_hlen h /\ (forall p, p < g_hlen h -> g_idx h' p = g_idx h (sw a b p)) /\
    (forall i, In i (g_h_heap h') <-> In i (g_h_heap h)) /\
    length (g_h_pos h') = length (g_h_pos h).
Proof.
  intros H Ha Hb. unfold g_heap_swap.
  pose proof (g_idx_nth h a Ha) as Ea. pose proof (g_idx_nth h b Hb) as Eb.
  destruct (vswap_ok _ _ _ _ _ Ea Eb) as (hp & -> & Lhp & Hhp). cbn [bind].
  assert (Ga : nth_error hp a = Some (g_idx h b)).
  { rewrite Hhp. unfold sw. rewrite Nat.eqb_refl. auto. }
  assert (Gb : nth_error hp b = Some (g_idx h a)).
  { rewrite Hhp. unfold sw. rewrite Nat.eqb_refl. destruct (Nat.eqb_spec b a); subst; auto. }
  rewrite (proj2 (vget_ok _ _ _) Ga), (proj2 (vget_ok _ _ _) Gb). cbn [bind].
  destruct (vswap_ok _ _ _ _ _ (g_hs_idx_pos h b H Hb) (g_hs_idx_pos h a H Ha)) as (ps & -> & Lps & Hps).
  cbn [bind]. eexists. split; [reflexivity|]. cbn [g_h_values g_h_pos g_h_heap]. unfold g_hlen in *. cbn [g_h_heap].
  assert (Hidx : forall p, p < length (g_h_heap h) -> nth_error hp p = Some (g_idx h (sw a b p))).
  { intros p Hp. rewrite Hhp. apply g_idx_nth. apply sw_lt; auto. }
  assert (Hpi : forall p, p < length (g_h_heap h) ->
     nth_error ps (g_idx h p) = Some (Some (sw a b p))).
  { intros p Hp. rewrite Hps. unfold sw.
    destruct (Nat.eqb_spec (g_idx h p) (g_idx h b)).
    - assert (p = b).
      { assert (E1 := g_hs_idx_pos h p H Hp). assert (E2 := g_hs_idx_pos h b H Hb). rewrite e in E1. congruence. }
      subst. rewrite (g_hs_idx_pos h a H Ha). destruct (Nat.eqb_spec b a); subst; auto.
      rewrite Nat.eqb_refl. auto.
    - destruct (Nat.eqb_spec (g_idx h p) (g_idx h a)).
      + assert (p = a).
        { assert (E1 := g_hs_idx_pos h p H Hp). assert (E2 := g_hs_idx_pos h a H Ha). rewrite e in E1. congruence. }
        subst. rewrite Nat.eqb_refl. apply (g_hs_idx_pos h b H Hb).
      + rewrite (g_hs_idx_pos h p H Hp).
        destruct (Nat.eqb_spec p a); [subst; congruence|]. destruct (Nat.eqb_spec p b); [subst; congruence|]. auto. }
  split; [split; cbn [g_h_values g_h_pos g_h_heap]|].
  - rewrite Lps. apply (g_hs_len h H).
  - intros p i E. assert (Hp : p < length (g_h_heap h)) by (rewrite <- Lhp; apply nth_error_Some; congruence).
    rewrite Hidx in E by auto. injection E as <-.
    rewrite Hpi by (apply sw_lt; auto). rewrite sw_inv. auto.
  - intros i p E.
    assert (exists q, q < length (g_h_heap h) /\ i = g_idx h q) as (q & Hq & ->).
    { rewrite Hps in E. unfold sw in E.
      destruct (Nat.eqb_spec i (g_idx h b)); [eauto|]. destruct (Nat.eqb_spec i (g_idx h a)); [eauto|].
      apply (g_hs_heap h H) in E. exists p. split; [apply nth_error_Some; congruence|].
      symmetry. apply nth_error_nth. auto. }
    rewrite Hpi in E by auto. injection E as <-. rewrite Hidx by (apply sw_lt; auto). rewrite sw_inv. auto.
  - split; auto. split; [auto|]. split; [|split].
    + intros p Hp. unfold g_idx at 1. cbn [g_h_heap]. apply nth_error_nth. apply Hidx; auto.
    + intro i. split; intro Hi; apply In_nth_error in Hi as [p E].
      * rewrite Hhp in E. eapply nth_error_In; eauto.
      * eapply (nth_error_In _ (sw a b p)). rewrite Hhp, sw_inv. eauto.
    + auto.
Qed.

Lemma g_hval_swap h h' a b p : g_h_values h' = g_h_values h -> p < g_hlen h ->
  (forall p, p < g_hlen h -> g_idx h' p = g_idx h (sw a b p)) -> g_hval h' p = g_hval h (sw a b p).
Proof. intros Hv Hp Hi. unfold g_hval. rewrite Hv, Hi; auto. Qed.

(** What every reordering keeps. *)
Definition g_same_heap (h h' : g_heap) : Prop :=
  g_HS h' /\ g_h_values h' = g_h_values h /\ g_hlen h' = g_hlen h /\
  (forall i, In i (g_h_heap h') <-> In i (g_h_heap h)) /\
  length (g_h_pos h') = length (g_h_pos h).

Lemma g_same_refl h : g_HS h -> g_same_heap h h.
Proof. unfold g_same_heap. intuition. Qed.
Lemma g_same_trans h1 h2 h3 : g_same_heap h1 h2 -> g_same_heap h2 h3 -> g_same_heap h1 h3.
Proof.
  unfold g_same_heap. intros (A & B & C & D & E) (A' & B' & C' & D' & E').
  repeat split; try congruence; try apply A'; intro; [apply D, D'|apply D', D]; auto.
Qed.

(** Order except between [pos] and its parent. *)
Definition g_HOup (h : g_heap) (pos : nat) : Prop :=
  (forall p, 0 < p -> p < g_hlen h -> p <> pos -> vle (g_hval h p) (g_hval h (par p))) /\
  (forall p, 0 < p -> p < g_hlen h -> par p = pos -> 0 < pos -> vle (g_hval h p) (g_hval h (par pos))).

Lemma g_root_loop_ok fuel : forall h pos, g_HS h -> pos < g_hlen h -> pos <= fuel ->
  exists h', g_root_loop fuel h (g_hval h pos) pos = Ret h' /\ g_same_heap h h' /\
    (g_HOup h pos -> g_HO h').
Proof.
  induction fuel; intros h pos H Hp Hf.
  - assert (pos = 0) as -> by lia. simpl. exists h. split; auto. split; [apply g_same_refl; auto|].
    intros [U _] p Hp1 Hp2. apply U; auto; lia.
  - destruct pos as [|pos'].
    + simpl. exists h. split; auto. split; [apply g_same_refl; auto|].
      intros [U _] p Hp1 Hp2. apply U; auto; lia.
    + remember (S pos') as pos eqn:Epos. cbn [g_root_loop].
      replace (match pos with 0 => Ret h | S _ => _ end) with
        (let* pv := g_value_at h (par pos) in
          if vlt (pv) (g_hval h pos) then
            let* h' := g_heap_swap h pos (par pos) in g_root_loop fuel h' (g_hval h pos) (par pos)
          else Ret h) by (rewrite Epos; reflexivity).
      pose proof (par_lt pos ltac:(lia)) as Hpar.
      rewrite g_value_at_ok by (auto; lia). cbn [bind].
      destruct (vlt (g_hval h (par pos)) (g_hval h pos)) eqn:Hlt.
      * destruct (g_heap_swap_ok h pos (par pos) H Hp ltac:(lia)) as (h1 & -> & H1 & Hv1 & Hl1 & Hi1 & Hm1 & Hlp1).
        cbn [bind].
        assert (Hval : forall p, p < g_hlen h -> g_hval h1 p = g_hval h (sw pos (par pos) p)).
        { intros. apply g_hval_swap; auto. }
        assert (E : g_hval h pos = g_hval h1 (par pos)).
        { rewrite Hval by lia. f_equal. unfold sw. rewrite Nat.eqb_refl.
          destruct (Nat.eqb_spec (par pos) pos); auto; lia. }
        rewrite E.
        destruct (IHfuel h1 (par pos) H1 ltac:(lia) ltac:(lia)) as (h2 & -> & Hs2 & Ho2).
        exists h2. split; auto. split.
        { eapply g_same_trans; [|exact Hs2]. repeat split; auto; try apply H1; apply Hm1. }
        intros [U1 U2]. apply Ho2. split.
        -- intros p Hp1 Hp2 Hne. rewrite Hl1 in Hp2.
           pose proof (par_lt p Hp1).
           rewrite (Hval p), (Hval (par p)) by lia. unfold sw.
           destruct (Nat.eqb_spec p pos) as [->|Hn1].
           { rewrite Nat.eqb_refl. destruct (Nat.eqb_spec (par pos) pos); [lia|ord]. }
           destruct (Nat.eqb_spec p (par pos)); [congruence|].
           destruct (Nat.eqb_spec (par p) pos) as [E2|].
           { apply U2; auto. lia. }
           destruct (Nat.eqb_spec (par p) (par pos)) as [E2|].
           { pose proof (U1 p Hp1 Hp2 Hn1) as U. rewrite E2 in U. ord. }
           apply U1; auto.
        -- intros p Hp1 Hp2 Hpp Hpos0. rewrite Hl1 in Hp2. pose proof (par_lt (par pos) Hpos0).
           rewrite (Hval p), (Hval (par (par pos))) by lia.
           assert (G : vle (g_hval h (par pos)) (g_hval h (par (par pos)))).
           { apply U1; lia. }
           unfold sw at 2. destruct (Nat.eqb_spec (par (par pos)) pos); [lia|].
           destruct (Nat.eqb_spec (par (par pos)) (par pos)); [lia|].
           unfold sw. destruct (Nat.eqb_spec p pos) as [->|Hn1]; [auto|].
           destruct (Nat.eqb_spec p (par pos)) as [->|Hn2]; [pose proof (par_lt (par pos) Hpos0); lia|].
           pose proof (U1 p Hp1 Hp2 Hn1) as U. rewrite Hpp in U. ord.
      * exists h. split; auto. split; [apply g_same_refl; auto|].
        intros [U1 U2] p Hp1 Hp2. destruct (Nat.eq_dec p pos) as [->|]; [ord|auto].
Qed.

Lemma g_move_towards_root_ok h pos : g_HS h -> pos < g_hlen h ->
  exists h', g_move_towards_root h pos = Ret h' /\ g_same_heap h h' /\ (g_HOup h pos -> g_HO h').
Proof.
  intros H Hp. unfold g_move_towards_root. rewrite g_value_at_ok by auto. simpl.
  apply g_root_loop_ok; auto.
Qed.

(** Order except between [pos] and its children. *)
Definition g_HOdown (h : g_heap) (pos : nat) : Prop :=
  (forall p, 0 < p -> p < g_hlen h -> par p <> pos -> vle (g_hval h p) (g_hval h (par p))) /\
  (forall p, 0 < p -> p < g_hlen h -> par p = pos -> 0 < pos -> vle (g_hval h p) (g_hval h (par pos))).

(** One round of [g_leaves_loop]: the position to continue with. *)
Definition g_down_target (h : g_heap) (pos : nat) : nat :=
  let '(sp, sv) :=
    if pos * 2 + 1 <? g_hlen h
    then if vlt (g_hval h pos) (g_hval h (pos * 2 + 1)) then (pos * 2 + 1, g_hval h (pos * 2 + 1)) else (pos, g_hval h pos)
    else (pos, g_hval h pos) in
  if pos * 2 + 2 <? g_hlen h then if vlt (sv) (g_hval h (pos * 2 + 2)) then pos * 2 + 2 else sp else sp.

Lemma g_leaves_unfold fuel h pos : g_HS h -> pos < g_hlen h ->
  g_leaves_loop (S fuel) h (g_hval h pos) pos =
  if g_down_target h pos =? pos then Ret h
  else let* h' := g_heap_swap h pos (g_down_target h pos) in g_leaves_loop fuel h' (g_hval h pos) (g_down_target h pos).
Proof.
  intros H Hp. cbn [g_leaves_loop]. unfold g_down_target. fold (g_hlen h).
  destruct (Nat.ltb_spec (pos * 2 + 1) (g_hlen h)).
  - rewrite g_value_at_ok by auto. cbn [bind].
    destruct (vlt (g_hval h pos) (g_hval h (pos * 2 + 1))); cbn [bind].
    + destruct (Nat.ltb_spec (pos * 2 + 2) (g_hlen h)); [|reflexivity].
      rewrite g_value_at_ok by auto. cbn [bind].
      destruct (vlt (g_hval h (pos * 2 + 1)) (g_hval h (pos * 2 + 2))); reflexivity.
    + destruct (Nat.ltb_spec (pos * 2 + 2) (g_hlen h)); [|reflexivity].
      rewrite g_value_at_ok by auto. cbn [bind].
      destruct (vlt (g_hval h pos) (g_hval h (pos * 2 + 2))); reflexivity.
  - cbn [bind]. destruct (Nat.ltb_spec (pos * 2 + 2) (g_hlen h)); [lia|]. reflexivity.
Qed.

Lemma g_down_target_cases h pos :
  let t := g_down_target h pos in
  (t = pos /\ (forall p, 0 < p -> p < g_hlen h -> par p = pos -> vle (g_hval h p) (g_hval h pos))) \/
  (0 < t /\ pos < t /\ t < g_hlen h /\ par t = pos /\ vle (g_hval h pos) (g_hval h t) /\
   (forall p, 0 < p -> p < g_hlen h -> par p = pos -> vle (g_hval h p) (g_hval h t))).
Proof.
  assert (D : forall p, 0 < p -> par p = pos -> p = pos * 2 + 1 \/ p = pos * 2 + 2).
  { intros p Hp E. apply par_inv in E; auto. lia. }
  unfold g_down_target.
  destruct (Nat.ltb_spec (pos * 2 + 1) (g_hlen h)).
  - destruct (vlt (g_hval h pos) (g_hval h (pos * 2 + 1))) eqn:Q1.
    + destruct (Nat.ltb_spec (pos * 2 + 2) (g_hlen h)).
      * destruct (vlt (g_hval h (pos * 2 + 1)) (g_hval h (pos * 2 + 2))) eqn:Q2; right;
        (split; [lia|]; split; [lia|]; split; [lia|]; split; [first [apply par_left|apply par_right]|]; split; [ord|];
         intros p Hp1 Hp2 Hpp; destruct (D p Hp1 Hpp) as [-> | ->]; first [lia|ord]).
      * right; split; [lia|]; split; [lia|]; split; [lia|]; split; [apply par_left|]; split; [ord|];
         intros p Hp1 Hp2 Hpp; destruct (D p Hp1 Hpp) as [-> | ->]; first [lia|ord].
    + destruct (Nat.ltb_spec (pos * 2 + 2) (g_hlen h)).
      * destruct (vlt (g_hval h pos) (g_hval h (pos * 2 + 2))) eqn:Q2.
        -- right; split; [lia|]; split; [lia|]; split; [lia|]; split; [apply par_right|]; split; [ord|];
           intros p Hp1 Hp2 Hpp; destruct (D p Hp1 Hpp) as [-> | ->]; first [lia|ord].
        -- left; split; auto; intros p Hp1 Hp2 Hpp; destruct (D p Hp1 Hpp) as [-> | ->]; first [lia|ord].
      * left; split; auto; intros p Hp1 Hp2 Hpp; destruct (D p Hp1 Hpp) as [-> | ->]; first [lia|ord].
  - destruct (Nat.ltb_spec (pos * 2 + 2) (g_hlen h)); [lia|].
    left; split; auto; intros p Hp1 Hp2 Hpp; destruct (D p Hp1 Hpp) as [-> | ->]; first [lia|ord].
Qed.

Lemma g_leaves_loop_ok fuel : forall h pos, g_HS h -> pos < g_hlen h -> g_hlen h - pos < fuel ->
  exists h', g_leaves_loop fuel h (g_hval h pos) pos = Ret h' /\ g_same_heap h h' /\
    (g_HOdown h pos -> g_HO h').
Proof.
  induction fuel; intros h pos H Hp Hf; [lia|].
  rewrite g_leaves_unfold by auto.
  pose proof (g_down_target_cases h pos) as D. cbv zeta in D.
  set (t := g_down_target h pos) in *. destruct D as [[Et Dm]|(Ht0 & Htp & Htl & Htpar & Hlt & Dm)].
  - rewrite Et, Nat.eqb_refl. exists h. split; auto. split; [apply g_same_refl; auto|].
    intros [U1 U2] p Hp1 Hp2. destruct (Nat.eq_dec (par p) pos) as [E|E]; auto. rewrite E. auto.
  - destruct (Nat.eqb_spec t pos); [lia|].
    destruct (g_heap_swap_ok h pos t H Hp Htl) as (h1 & -> & H1 & Hv1 & Hl1 & Hi1 & Hm1 & Hlp1).
    cbn [bind].
    assert (Hval : forall p, p < g_hlen h -> g_hval h1 p = g_hval h (sw pos t p)).
    { intros. apply g_hval_swap; auto. }
    assert (E : g_hval h pos = g_hval h1 t).
    { rewrite Hval by lia. f_equal. unfold sw. rewrite Nat.eqb_refl.
      destruct (Nat.eqb_spec t pos); auto; lia. }
    rewrite E.
    destruct (IHfuel h1 t H1 ltac:(lia) ltac:(lia)) as (h2 & -> & Hs2 & Ho2).
    exists h2. split; auto. split.
    { eapply g_same_trans; [|exact Hs2]. repeat split; auto; try apply H1; apply Hm1. }
    intros [U1 U2]. apply Ho2. split.
    + intros p Hp1 Hp2 Hne. rewrite Hl1 in Hp2. pose proof (par_lt p Hp1).
      rewrite (Hval p), (Hval (par p)) by lia. unfold sw.
      destruct (Nat.eqb_spec p pos) as [->|Hn1].
      { destruct (Nat.eqb_spec (par pos) pos); [lia|].
        destruct (Nat.eqb_spec (par pos) t); [lia|]. apply U2; auto. }
      destruct (Nat.eqb_spec p t) as [->|Hn2].
      { rewrite Htpar, Nat.eqb_refl. ord. }
      destruct (Nat.eqb_spec (par p) pos) as [E2|].
      { apply Dm; auto. }
      destruct (Nat.eqb_spec (par p) t); [congruence|]. apply U1; auto.
    + intros p Hp1 Hp2 Hpp _. rewrite Hl1 in Hp2. rewrite Htpar. pose proof (par_lt p Hp1).
      rewrite (Hval p), (Hval pos) by lia. unfold sw. rewrite Nat.eqb_refl.
      destruct (Nat.eqb_spec p pos); [lia|]. destruct (Nat.eqb_spec p t); [lia|].
      rewrite <- Hpp. apply U1; auto. lia.
Qed.

Lemma g_move_towards_leaves_ok h pos : g_HS h -> pos < g_hlen h ->
  exists h', g_move_towards_leaves h pos = Ret h' /\ g_same_heap h h' /\ (g_HOdown h pos -> g_HO h').
Proof.
  intros H Hp. unfold g_move_towards_leaves. rewrite g_value_at_ok by auto. cbn [bind].
  apply g_leaves_loop_ok; auto. unfold g_hlen. lia.
Qed.

(** ** Queue operations *)

Lemma g_pos_in_some h p : g_HS h -> forall i, nth_error (g_h_pos h) i = Some p -> g_pos_in h p = p.
Proof.
  intros H i E. destruct p as [p|]; auto. simpl. apply (g_hs_heap h H) in E.
  assert (p < length (g_h_heap h)) by (apply nth_error_Some; congruence).
  destruct (Nat.ltb_spec p (length (g_h_heap h))); auto; lia.
Qed.

Lemma g_hs_in_iff h i : g_HS h -> In i (g_h_heap h) <-> exists p, nth_error (g_h_pos h) i = Some (Some p).
Proof.
  intro H. split.
  - intro Hi. apply In_nth_error in Hi as [p E]. exists p. apply (g_hs_pos h H); auto.
  - intros [p E]. apply (g_hs_heap h H) in E. eapply nth_error_In; eauto.
Qed.

Lemma g_hs_in_lt h i : g_HS h -> In i (g_h_heap h) -> i < length (g_h_values h).
Proof.
  intros H Hi. apply g_hs_in_iff in Hi as [p E]; auto. rewrite <- (g_hs_len h H).
  apply nth_error_Some. congruence.
Qed.

Lemma g_is_enqueued_ok h i : g_HS h -> i < length (g_h_values h) ->
  exists b, g_is_enqueued h i = Ret b /\ (b = true <-> In i (g_h_heap h)).
Proof.
  intros H Hi. rewrite <- (g_hs_len h H) in Hi. unfold g_is_enqueued.
  destruct (vget_in _ _ Hi) as [p E]. rewrite E. simpl. apply vget_ok in E.
  rewrite (g_pos_in_some h p H _ E). eexists. split; [reflexivity|].
  rewrite g_hs_in_iff by auto. destruct p; split; intro G; eauto; try discriminate.
  destruct G as [q G]. congruence.
Qed.

(** Appending an index that is not enqueued. *)
Lemma g_hs_append h i : g_HS h -> i < length (g_h_values h) -> ~ In i (g_h_heap h) ->
  g_HS (g_mkHeap (g_h_values h) (upd (g_h_pos h) i (Some (g_hlen h))) (g_h_heap h ++ [i])).
Proof.
  intros H Hi Hn. split; cbn [g_h_values g_h_pos g_h_heap].
  - rewrite upd_length. apply (g_hs_len h H).
  - intros p j E. destruct (Nat.lt_ge_cases p (length (g_h_heap h))).
    + rewrite nth_error_app1 in E by auto.
      rewrite upd_other; [apply (g_hs_pos h H); auto|]. intros ->. apply Hn. eapply nth_error_In; eauto.
    + rewrite nth_error_app2 in E by auto.
      assert (p = length (g_h_heap h)) as ->.
      { destruct (p - length (g_h_heap h)) eqn:D; [lia|]. simpl in E. destruct n; discriminate. }
      rewrite Nat.sub_diag in E. injection E as <-. apply upd_same. rewrite (g_hs_len h H). auto.
  - intros j p E. rewrite upd_nth in E. destruct (Nat.eqb_spec i j) as [->|].
    + rewrite (g_hs_len h H) in E. destruct (Nat.ltb_spec j (length (g_h_values h))); [|lia].
      injection E as <-. unfold g_hlen. rewrite nth_error_app2, Nat.sub_diag by lia. auto.
    + apply (g_hs_heap h H) in E. rewrite nth_error_app1; auto. apply nth_error_Some. congruence.
Qed.

Lemma g_hval_app vals ps hp i p : p < length hp ->
  g_hval (g_mkHeap vals ps (hp ++ [i])) p = nth (nth p hp 0) vals d.
Proof. intro H. unfold g_hval, g_idx. cbn [g_h_heap g_h_values]. rewrite app_nth1; auto. Qed.

Lemma g_enqueue_ok h i : g_HS h -> i < length (g_h_values h) ->
  exists h', g_enqueue h i = Ret h' /\ g_HS h' /\ g_h_values h' = g_h_values h /\
    (forall j, In j (g_h_heap h') <-> In j (g_h_heap h) \/ j = i) /\ (g_HO h -> g_HO h').
Proof.
  intros H Hi. unfold g_enqueue. pose proof Hi as Hi'. rewrite <- (g_hs_len h H) in Hi'.
  destruct (vget_in _ _ Hi') as [p E]. rewrite E. simpl. apply vget_ok in E.
  rewrite (g_pos_in_some h p H _ E). destruct p as [p|].
  - exists h. split; auto. split; auto. split; auto. split; auto.
    intro j. split; [auto|]. intros [?| ->]; auto. apply g_hs_in_iff; eauto.
  - assert (Hn : ~ In i (g_h_heap h)) by (rewrite g_hs_in_iff by auto; intros [q Hq]; congruence).
    rewrite vset_lt by auto. cbn [bind]. fold (g_hlen h).
    pose proof (g_hs_append h i H Hi Hn) as H1. set (h1 := g_mkHeap _ _ _) in *.
    assert (L1 : g_hlen h1 = S (g_hlen h)) by (unfold h1, g_hlen; simpl; rewrite app_length; simpl; lia).
    destruct (g_move_towards_root_ok h1 (g_hlen h) H1 ltac:(lia)) as (h' & -> & (S1 & S2 & S3 & S4 & S5) & Ho).
    exists h'. split; auto. split; auto. split; auto. split.
    + intro j. rewrite S4. unfold h1. simpl. rewrite in_app_iff. simpl. intuition.
    + intro HOh. apply Ho.
      assert (Vq : forall p, p < g_hlen h -> g_hval h1 p = g_hval h p).
      { intros p Hp. unfold h1. rewrite g_hval_app by auto. reflexivity. }
      split.
      * intros p Hp1 Hp2 Hne. rewrite L1 in Hp2. pose proof (par_lt p Hp1).
        rewrite !Vq by lia. apply HOh; lia.
      * intros p Hp1 Hp2 Hpp Hpos. pose proof (par_lt p Hp1). lia.
Qed.

(** Removing the last g_heap entry. *)
Lemma g_hs_remove_last h i : g_HS h -> 0 < g_hlen h -> g_idx h (g_hlen h - 1) = i ->
  exists h1, g_heap_clear_pos h i = Ret h1 /\ g_HS (g_heap_pop_last h1) /\
    g_h_values (g_heap_pop_last h1) = g_h_values h /\ g_hlen (g_heap_pop_last h1) = g_hlen h - 1 /\
    (forall p, p < g_hlen h - 1 -> g_idx (g_heap_pop_last h1) p = g_idx h p) /\
    (forall j, In j (g_h_heap (g_heap_pop_last h1)) <-> In j (g_h_heap h) /\ j <> i) /\
    length (g_h_pos h1) = length (g_h_pos h).
Proof.
  intros H Hl Hi. unfold g_heap_clear_pos.
  assert (Hp : g_hlen h - 1 < g_hlen h) by lia.
  assert (Hil : i < length (g_h_pos h)).
  { apply nth_error_Some. rewrite <- Hi, (g_hs_idx_pos h _ H Hp). discriminate. }
  rewrite vset_lt by auto. cbn [bind]. eexists. split; [reflexivity|].
  unfold g_heap_pop_last; cbn [g_h_values g_h_pos g_h_heap]. unfold g_hlen in *; cbn [g_h_heap].
  assert (Hne : g_h_heap h <> []) by (destruct (g_h_heap h); simpl in *; [lia|discriminate]).
  pose proof (app_removelast_last 0 Hne) as Sp.
  assert (Ll : last (g_h_heap h) 0 = i).
  { rewrite <- Hi. unfold g_idx. rewrite Sp at 2 3. rewrite app_length. simpl.
    rewrite app_nth2 by lia. replace (_ - _) with 0 by lia. reflexivity. }
  rewrite Ll in Sp. set (hp := removelast (g_h_heap h)) in *.
  assert (Lhp : length (g_h_heap h) = S (length hp)) by (rewrite Sp, app_length; simpl; lia).
  assert (Ent : forall p, p < length hp -> nth_error hp p = nth_error (g_h_heap h) p).
  { intros p Hlt. rewrite Sp. rewrite nth_error_app1; auto. }
  pose proof (g_hs_nodup h H) as ND. rewrite Sp in ND. apply NoDup_remove in ND as [ND Nin].
  rewrite app_nil_r in ND, Nin.
  split; [split; cbn [g_h_values g_h_pos g_h_heap]|].
  - rewrite upd_length. apply (g_hs_len h H).
  - intros p j E. assert (Hlt : p < length hp) by (apply nth_error_Some; congruence).
    rewrite upd_other; [|intros ->; apply Nin; eapply nth_error_In; eauto].
    apply (g_hs_pos h H). rewrite <- Ent; auto.
  - intros j p E. rewrite upd_nth in E. destruct (Nat.eqb_spec i j) as [->|Hij].
    + destruct (_ <? _) in E; congruence.
    + apply (g_hs_heap h H) in E. rewrite Ent; auto.
      assert (p < length (g_h_heap h)) by (apply nth_error_Some; congruence).
      destruct (Nat.eq_dec p (length hp)); [|lia]. subst p.
      rewrite Sp in E. rewrite nth_error_app2, Nat.sub_diag in E by lia. simpl in E. congruence.
  - split; auto. split; [lia|]. split; [|split].
    + intros p Hlt. unfold g_idx. cbn [g_h_heap]. fold hp. rewrite Sp. rewrite app_nth1 by lia. auto.
    + intro j. rewrite Sp, in_app_iff. simpl. split.
      * intro Hj. split; auto. intros ->. auto.
      * intros [[?|[?|[]]] ?]; auto. congruence.
    + apply upd_length.
Qed.

Definition g_minus (h h' : g_heap) (i : nat) : Prop :=
  g_HS h' /\ g_h_values h' = g_h_values h /\ (forall j, In j (g_h_heap h') <-> In j (g_h_heap h) /\ j <> i).

Lemma g_dequeue_ok h i : g_HS h -> i < length (g_h_values h) ->
  exists h', g_dequeue h i = Ret h' /\ g_minus h h' i.
Proof.
  intros H Hi. unfold g_dequeue. pose proof Hi as Hi'. rewrite <- (g_hs_len h H) in Hi'.
  destruct (vget_in _ _ Hi') as [p E]. rewrite E. cbn [bind]. apply vget_ok in E.
  rewrite (g_pos_in_some h p H _ E). destruct p as [p|].
  - pose proof (g_hs_heap h H _ _ E) as Ep.
    assert (Hp : p < g_hlen h) by (apply nth_error_Some; congruence).
    assert (Ip : g_idx h p = i) by (unfold g_idx; apply nth_error_nth; auto).
    fold (g_hlen h). destruct (Nat.eqb_spec (g_hlen h - 1) p) as [El|Hnl].
    + destruct (g_hs_remove_last h i H ltac:(lia)) as (h1 & -> & R1 & R2 & R3 & R4 & R5 & R6).
      { rewrite El. auto. }
      cbn [bind]. eexists. split; [reflexivity|]. split; auto.
    + destruct (g_heap_swap_ok h (g_hlen h - 1) p H ltac:(lia) Hp) as (h1 & -> & H1 & Hv1 & Hl1 & Hi1 & Hm1 & Hlp1).
      cbn [bind].
      destruct (g_hs_remove_last h1 i H1 ltac:(lia)) as (h2 & -> & R1 & R2 & R3 & R4 & R5 & R6).
      { rewrite Hl1, Hi1 by lia. unfold sw. rewrite Nat.eqb_refl. auto. }
      cbn [bind].
      assert (Hm : forall j, In j (g_h_heap (g_heap_pop_last h2)) <-> In j (g_h_heap h) /\ j <> i).
      { intro j. rewrite R5, Hm1. tauto. }
      rewrite g_value_at_ok by (auto; lia). cbn [bind].
      rewrite R2, Hv1. destruct (vget_in _ _ Hi) as [rv ->]. cbn [bind].
      destruct (vgt _ _).
      * destruct (g_move_towards_leaves_ok (g_heap_pop_last h2) p R1 ltac:(lia)) as (h' & -> & (S1 & S2 & S3 & S4 & S5) & _).
        exists h'. split; auto. split; auto. split; [congruence|]. intro j. rewrite S4. apply Hm.
      * destruct (g_move_towards_root_ok (g_heap_pop_last h2) p R1 ltac:(lia)) as (h' & -> & (S1 & S2 & S3 & S4 & S5) & _).
        exists h'. split; auto. split; auto. split; [congruence|]. intro j. rewrite S4. apply Hm.
  - exists h. split; auto. split; auto. split; auto. intro j. split; [|tauto].
    intro Hj. split; auto. intros ->. apply g_hs_in_iff in Hj as [q Hq]; auto. congruence.
Qed.

Lemma g_ho_root_max h : g_HO h -> forall p, p < g_hlen h -> vle (g_hval h p) (g_hval h 0).
Proof.
  intro H. induction p as [p IH] using lt_wf_ind. intro Hp.
  destruct p as [|p']; [apply vle_refl|]. set (p := S p') in *.
  pose proof (par_lt p ltac:(lia)). eapply vle_trans; [apply H; lia|]. apply IH; lia.
Qed.

Lemma g_pop_max_ok h : g_HS h ->
  match g_h_heap h with
  | [] => g_pop_max h = Ret (None, h)
  | i :: _ => exists h', g_pop_max h = Ret (Some i, h') /\ g_minus h h' i /\
      (g_HO h -> g_HO h' /\ forall j, In j (g_h_heap h) -> vle (nth j (g_h_values h) d) (nth i (g_h_values h) d))
  end.
Proof.
  intro H. unfold g_pop_max. destruct (g_h_heap h) as [|i r] eqn:Eh; [reflexivity|].
  assert (Hl : 0 < g_hlen h) by (unfold g_hlen; rewrite Eh; simpl; lia).
  assert (I0 : g_idx h 0 = i) by (unfold g_idx; rewrite Eh; reflexivity).
  rewrite <- Eh. fold (g_hlen h).
  assert (Hmax : g_HO h -> forall j, In j (g_h_heap h) -> vle (nth j (g_h_values h) d) (nth i (g_h_values h) d)).
  { intros Ho j Hj. apply In_nth_error in Hj as [p Hp].
    assert (p < g_hlen h) by (apply nth_error_Some; congruence).
    pose proof (g_ho_root_max h Ho p H0) as G. unfold g_hval in G.
    rewrite I0 in G. unfold g_idx in G. rewrite (nth_error_nth _ _ _ Hp) in G. auto. }
  destruct (Nat.eqb_spec (g_hlen h - 1) 0) as [El|Hnl].
  - destruct (g_hs_remove_last h i H Hl) as (h1 & -> & R1 & R2 & R3 & R4 & R5 & R6).
    { rewrite El. auto. }
    cbn [bind]. eexists. split; [reflexivity|]. split; [split; auto|]. intro Ho. split; auto.
    intros p Hp1 Hp2. lia.
  - destruct (g_heap_swap_ok h (g_hlen h - 1) 0 H ltac:(lia) Hl) as (h1 & -> & H1 & Hv1 & Hl1 & Hi1 & Hm1 & Hlp1).
    cbn [bind].
    destruct (g_hs_remove_last h1 i H1 ltac:(lia)) as (h2 & -> & R1 & R2 & R3 & R4 & R5 & R6).
    { rewrite Hl1, Hi1 by lia. unfold sw. rewrite Nat.eqb_refl. auto. }
    cbn [bind].
    destruct (g_move_towards_leaves_ok (g_heap_pop_last h2) 0 R1 ltac:(lia)) as (h' & -> & (S1 & S2 & S3 & S4 & S5) & Ho).
    cbn [bind]. exists h'. split; auto. split.
    { split; auto. split; [congruence|]. intro j. rewrite S4, R5, Hm1. tauto. }
    intro HOh. split; auto. apply Ho. split; [|lia].
    intros p Hp1 Hp2 Hpp. rewrite R3, Hl1 in Hp2. pose proof (par_lt p Hp1).
    assert (Vq : forall q, 0 < q -> q < g_hlen h - 1 -> g_hval (g_heap_pop_last h2) q = g_hval h q).
    { intros q Hq1 Hq2. unfold g_hval. rewrite R2, Hv1. f_equal. rewrite R4 by lia.
      rewrite Hi1 by lia. unfold sw. destruct (Nat.eqb_spec q (g_hlen h - 1)); [lia|].
      destruct (Nat.eqb_spec q 0); [lia|]. auto. }
    rewrite !Vq by lia. apply HOh; lia.
Qed.

Lemma g_hs_values h vs : g_HS h -> length vs = length (g_h_values h) ->
  g_HS (g_mkHeap vs (g_h_pos h) (g_h_heap h)).
Proof.
  intros H L. split; cbn [g_h_values g_h_pos g_h_heap].
  - rewrite L. apply (g_hs_len h H).
  - apply (g_hs_pos h H).
  - apply (g_hs_heap h H).
Qed.

Lemma g_increase_ok h i f : g_HS h -> i < length (g_h_values h) ->
  exists h', g_increase h i f = Ret h' /\ g_HS h' /\
    g_h_values h' = upd (g_h_values h) i (f (nth i (g_h_values h) d)) /\
    (forall j, In j (g_h_heap h') <-> In j (g_h_heap h)) /\
    (g_HO h -> vle (nth i (g_h_values h) d) (f (nth i (g_h_values h) d)) -> g_HO h').
Proof.
  intros H Hi. unfold g_increase. rewrite (vget_nth d) by auto. cbn [bind].
  rewrite vset_lt by auto. cbn [bind g_h_pos].
  set (v := nth i (g_h_values h) d). set (vs := upd (g_h_values h) i (f v)).
  assert (Lvs : length vs = length (g_h_values h)) by apply upd_length.
  pose proof (g_hs_values h vs H Lvs) as H1. set (h1 := g_mkHeap vs (g_h_pos h) (g_h_heap h)) in *.
  pose proof Hi as Hi'. rewrite <- (g_hs_len h H) in Hi'.
  destruct (vget_in _ _ Hi') as [p E]. rewrite E. cbn [bind]. apply vget_ok in E.
  rewrite (g_pos_in_some h1 p H1 _ E).
  assert (Vo : forall q, q < g_hlen h -> g_idx h q <> i -> g_hval h1 q = g_hval h q).
  { intros q Hq Hne. unfold g_hval, h1, g_idx in *. cbn [g_h_values g_h_heap].
    pose proof (g_hs_idx_lt h q H Hq) as Hlt. unfold g_idx in Hlt.
    apply nth_error_nth. unfold vs. rewrite upd_other by auto. apply nth_error_nth'. auto. }
  destruct p as [p|].
  - pose proof (g_hs_heap h H _ _ E) as Ep.
    assert (Hp : p < g_hlen h) by (apply nth_error_Some; congruence).
    destruct (g_move_towards_root_ok h1 p H1 Hp) as (h' & -> & (S1 & S2 & S3 & S4 & S5) & Ho).
    exists h'. split; auto. split; auto. split; auto. split; auto.
    intros HOh Hle. apply Ho.
    assert (Ip : g_idx h p = i) by (unfold g_idx; apply nth_error_nth; auto).
    assert (Uniq : forall q, q < g_hlen h -> q <> p -> g_idx h q <> i).
    { intros q Hq Hne Eq. pose proof (g_hs_idx_pos h q H Hq) as E1. rewrite Eq in E1. congruence. }
    assert (Vp : g_hval h1 p = f v).
    { unfold g_hval, h1, g_idx. cbn [g_h_values g_h_heap]. unfold g_idx in Ip. rewrite Ip.
      apply nth_error_nth. unfold vs. apply upd_same. auto. }
    assert (Vp' : g_hval h p = v) by (unfold g_hval; rewrite Ip; reflexivity).
    split.
    + intros q Hq1 Hq2 Hne. change (g_hlen h1) with (g_hlen h) in Hq2. pose proof (par_lt q Hq1).
      rewrite (Vo q) by auto. destruct (Nat.eq_dec (par q) p) as [Epp|Hnp].
      * rewrite Epp, Vp. specialize (HOh q Hq1 Hq2). rewrite Epp, Vp' in HOh.
        eapply vle_trans; [exact HOh|exact Hle].
      * rewrite Vo by (try apply Uniq; auto; lia). apply HOh; auto.
    + intros q Hq1 Hq2 Hpp Hp0. change (g_hlen h1) with (g_hlen h) in Hq2.
      pose proof (par_lt q Hq1). pose proof (par_lt p Hp0).
      rewrite (Vo q), (Vo (par p)) by (try apply Uniq; auto; lia).
      eapply vle_trans; [apply HOh; auto|]. rewrite Hpp. apply HOh; auto.
  - exists h1. split; auto. split; auto. split; auto. split; [tauto|].
    intros HOh Hle q Hq1 Hq2. change (g_hlen h1) with (g_hlen h) in Hq2. pose proof (par_lt q Hq1).
    assert (Hn : forall r, r < g_hlen h -> g_idx h r <> i).
    { intros r Hr Er. pose proof (g_hs_idx_pos h r H Hr) as G. rewrite Er in G. congruence. }
    rewrite !Vo by (try apply Hn; auto; lia). apply HOh; auto.
Qed.

Lemma g_apply_monotone_ok h f : g_HS h ->
  g_HS (g_apply_monotone h f) /\ g_h_values (g_apply_monotone h f) = map f (g_h_values h) /\
  (g_HO h -> (forall a b, vle a b -> vle (f a) (f b)) -> g_HO (g_apply_monotone h f)).
Proof.
  intro H. unfold g_apply_monotone. split; [apply g_hs_values; auto; apply map_length|]. split; auto.
  intros HOh Hf p Hp1 Hp2. unfold g_hlen in Hp2. simpl in Hp2. fold (g_hlen h) in Hp2.
  pose proof (par_lt p Hp1).
  assert (Vq : forall q, q < g_hlen h -> g_hval (g_mkHeap (map f (g_h_values h)) (g_h_pos h) (g_h_heap h)) q = f (g_hval h q)).
  { intros q Hq. unfold g_hval, g_idx. cbn [g_h_values g_h_heap].
    pose proof (g_hs_idx_lt h q H Hq) as Hlt. unfold g_idx in Hlt.
    apply nth_error_nth. rewrite nth_error_map. rewrite (nth_error_nth' _ d Hlt). reflexivity. }
  rewrite !Vq by lia. apply Hf. apply HOh; auto.
Qed.

Lemma g_dequeue_all ks : forall h, g_HS h -> (forall k, In k ks -> k < length (g_h_values h)) ->
  exists h', foldM g_dequeue ks h = Ret h' /\ g_HS h' /\ g_h_values h' = g_h_values h /\
    (forall j, In j (g_h_heap h') <-> In j (g_h_heap h) /\ ~ In j ks).
Proof.
  induction ks as [|k ks IH]; intros h H Hk; simpl.
  - exists h. repeat split; auto; try apply H; tauto.
  - destruct (g_dequeue_ok h k H) as (h1 & -> & D1 & D2 & D3); [apply Hk; left; auto|].
    cbn [bind]. destruct (IH h1 D1) as (h' & -> & A & B & C).
    { intros; rewrite D2; apply Hk; right; auto. }
    exists h'. split; auto. split; auto. split; [congruence|].
    intro j. rewrite C, D3. split; [intros [[? ?] ?]|intros [? Hn]]; repeat split; auto.
    intros [->|?]; auto.
Qed.

Lemma g_enqueue_all ks : forall h, g_HS h -> (forall k, In k ks -> k < length (g_h_values h)) ->
  exists h', foldM g_enqueue ks h = Ret h' /\ g_HS h' /\ g_h_values h' = g_h_values h /\
    (forall j, In j (g_h_heap h') <-> In j (g_h_heap h) \/ In j ks) /\ (g_HO h -> g_HO h').
Proof.
  induction ks as [|k ks IH]; intros h H Hk; simpl.
  - exists h. repeat split; auto; try apply H; tauto.
  - destruct (g_enqueue_ok h k H) as (h1 & -> & D1 & D2 & D3 & D4); [apply Hk; left; auto|].
    cbn [bind]. destruct (IH h1 D1) as (h' & -> & A & B & C & D).
    { intros; rewrite D2; apply Hk; right; auto. }
    exists h'. split; auto. split; auto. split; [congruence|]. split; auto.
    intro j. rewrite C, D3. intuition.
Qed.

Lemma g_heap_resize_ok h len value : g_HS h -> (N.of_nat len <= 4294967296)%N ->
  exists h', g_heap_resize h len value = Ret h' /\ g_HS h' /\
    g_h_values h' = vresize (g_h_values h) len value /\
    (forall j, In j (g_h_heap h') <-> In j (g_h_heap h) /\ j < len) /\
    (g_HO h -> length (g_h_values h) <= len -> g_HO h').
Proof.
  intros H Hlen. unfold g_heap_resize. destruct (N.leb_spec (N.of_nat len) 4294967296); [|lia].
  assert (exists h1, (if len <? length (g_h_values h)
            then foldM g_dequeue (seq len (length (g_h_values h) - len)) h else Ret h) = Ret h1 /\
          g_HS h1 /\ g_h_values h1 = g_h_values h /\
          (forall j, In j (g_h_heap h1) <-> In j (g_h_heap h) /\ j < len) /\
          (length (g_h_values h) <= len -> h1 = h)) as (h1 & -> & A & B & C & D).
  { destruct (Nat.ltb_spec len (length (g_h_values h))).
    - destruct (g_dequeue_all (seq len (length (g_h_values h) - len)) h H) as (h1 & -> & A & B & C).
      { intros k Hk. apply in_seq in Hk. lia. }
      exists h1. split; auto. split; auto. split; auto. split; [|lia].
      intro j. rewrite C, in_seq. split.
      + intros [Hj Hn]. split; auto. pose proof (g_hs_in_lt h j H Hj). lia.
      + intros [Hj Hl]. split; auto. lia.
    - exists h. split; auto. split; auto. split; auto. split; auto.
      intro j. split; [|tauto]. intro Hj. split; auto. pose proof (g_hs_in_lt h j H Hj). lia. }
  cbn [bind]. eexists. split; [reflexivity|]. cbn [g_h_values g_h_heap]. rewrite B.
  assert (Hin : forall j, In j (g_h_heap h1) -> j < len) by (intros j Hj; apply C; auto).
  split; [split; cbn [g_h_values g_h_pos g_h_heap]|].
  - rewrite !vresize_length. auto.
  - intros p i E. pose proof (Hin i (nth_error_In _ _ E)). rewrite vresize_nth by auto.
    rewrite (g_hs_pos h1 A _ _ E). auto.
  - intros i p E. assert (i < len).
    { assert (nth_error (vresize (g_h_pos h1) len None) i <> None) by congruence.
      apply nth_error_Some in H1. rewrite vresize_length in H1. auto. }
    rewrite vresize_nth in E by auto. destruct (nth_error (g_h_pos h1) i) eqn:E1; [|discriminate].
    apply (g_hs_heap h1 A). congruence.
  - split; auto. split; auto.
    intros HOh Hle. rewrite (D Hle). intros p Hp1 Hp2. unfold g_hlen in Hp2. simpl in Hp2. fold (g_hlen h) in Hp2.
    pose proof (par_lt p Hp1).
    assert (Vq : forall q, q < g_hlen h -> g_hval (g_mkHeap (vresize (g_h_values h) len value) (vresize (g_h_pos h) len None) (g_h_heap h)) q = g_hval h q).
    { intros q Hq. unfold g_hval, g_idx. cbn [g_h_values g_h_heap].
      pose proof (g_hs_idx_lt h q H Hq) as Hlt. unfold g_idx in Hlt.
      apply nth_error_nth. rewrite vresize_nth by lia. rewrite (nth_error_nth' _ d Hlt). auto. }
    rewrite !Vq by lia. apply HOh; auto.
Qed.

Lemma g_heap_resize_enqueued_ok h len value : g_HS h -> (N.of_nat len <= 4294967296)%N ->
  exists h', g_heap_resize_enqueued h len value = Ret h' /\ g_HS h' /\
    g_h_values h' = vresize (g_h_values h) len value /\
    (forall j, In j (g_h_heap h') <-> (In j (g_h_heap h) \/ length (g_h_values h) <= j) /\ j < len) /\
    (g_HO h -> length (g_h_values h) <= len -> g_HO h').
Proof.
  intros H Hlen. unfold g_heap_resize_enqueued, g_heap_len.
  destruct (g_heap_resize_ok h len value H Hlen) as (h1 & -> & A & B & C & D). cbn [bind].
  destruct (g_enqueue_all (seq (length (g_h_values h)) (len - length (g_h_values h))) h1 A) as (h' & -> & A' & B' & C' & D').
  { intros k Hk. apply in_seq in Hk. rewrite B, vresize_length. lia. }
  exists h'. split; auto. split; auto. split; [congruence|]. split; auto.
  intro j. rewrite C', C, in_seq. split; intuition lia.
Qed.

Lemma g_HS_empty : g_HS g_heap_empty.
Proof. split; simpl; auto; intros [|p] i E; discriminate. Qed.
Lemma g_HO_empty : g_HO g_heap_empty.
Proof. intros p _ Hp. unfold g_hlen in Hp. simpl in Hp. lia. Qed.


End Values.
