(** The addressable heap. *)
From Coq Require Import NArith List Bool Arith Lia ZifyN ZifyNat ZifyBool Permutation.
From Verif Require Import Model_Base Model_Heap Spec Proof_Base.
Import ListNotations.

(** Structural invariant: positions and heap are inverse to each other. *)
Record HS (h : heap) : Prop := {
  hs_len : length (h_pos h) = length (h_values h);
  hs_pos : forall p i, nth_error (h_heap h) p = Some i -> nth_error (h_pos h) i = Some (Some p);
  hs_heap : forall i p, nth_error (h_pos h) i = Some (Some p) -> nth_error (h_heap h) p = Some i
}.

Definition idx (h : heap) (p : nat) : nat := nth p (h_heap h) 0.
Definition hval (h : heap) (p : nat) : N := nth (idx h p) (h_values h) 0%N.
Definition hlen (h : heap) : nat := length (h_heap h).
Definition par (p : nat) : nat := (p - 1) / 2.

Lemma par_lt p : 0 < p -> par p < p.
Proof. intro H. unfold par. apply Nat.div_lt_upper_bound; lia. Qed.
Lemma par_inv p q : 0 < p -> par p = q -> p = 2 * q + 1 \/ p = 2 * q + 2.
Proof.
  intros H E. unfold par in E. pose proof (Nat.div_mod (p - 1) 2 ltac:(lia)) as D.
  pose proof (Nat.mod_upper_bound (p - 1) 2 ltac:(lia)). rewrite E in D. lia.
Qed.
Lemma par_left q : par (q * 2 + 1) = q.
Proof. unfold par. replace (q * 2 + 1 - 1) with (q * 2) by lia. apply Nat.div_mul. lia. Qed.
Lemma par_right q : par (q * 2 + 2) = q.
Proof.
  unfold par. symmetry. apply (Nat.div_unique _ 2 q 1); lia.
Qed.

Definition HO (h : heap) : Prop :=
  forall p, 0 < p -> p < hlen h -> (hval h p <= hval h (par p))%N.

Lemma hs_nodup h : HS h -> NoDup (h_heap h).
Proof.
  intro H. apply NoDup_nth_error. intros i j Hi E.
  destruct (nth_error (h_heap h) i) eqn:E1.
  - symmetry in E. apply (hs_pos h H) in E1. apply (hs_pos h H) in E. congruence.
  - apply nth_error_None in E1. lia.
Qed.

Lemma idx_nth h p : p < hlen h -> nth_error (h_heap h) p = Some (idx h p).
Proof. apply nth_error_nth'. Qed.

Lemma hs_idx_pos h p : HS h -> p < hlen h -> nth_error (h_pos h) (idx h p) = Some (Some p).
Proof. intros H Hp. apply (hs_pos h H). apply idx_nth; auto. Qed.

Lemma hs_idx_lt h p : HS h -> p < hlen h -> idx h p < length (h_values h).
Proof.
  intros H Hp. rewrite <- (hs_len h H). apply nth_error_Some. rewrite (hs_idx_pos h p H Hp). discriminate.
Qed.

Lemma value_at_ok h p : HS h -> p < hlen h -> value_at h p = Ret (hval h p).
Proof.
  intros H Hp. unfold value_at. rewrite (proj2 (vget_ok _ _ _) (idx_nth h p Hp)). simpl.
  apply vget_nth. apply hs_idx_lt; auto.
Qed.

Definition sw (a b p : nat) : nat := if p =? a then b else if p =? b then a else p.

Lemma vswap_ok {A} (v : list A) a b x y :
  nth_error v a = Some x -> nth_error v b = Some y ->
  exists v', vswap v a b = Ret v' /\ length v' = length v /\
    forall p, nth_error v' p = nth_error v (sw a b p).
Proof.
  intros Ha Hb. unfold vswap.
  rewrite (proj2 (vget_ok _ _ _) Ha), (proj2 (vget_ok _ _ _) Hb). simpl.
  assert (La : a < length v) by (apply nth_error_Some; congruence).
  assert (Lb : b < length v) by (apply nth_error_Some; congruence).
  rewrite vset_lt by auto. simpl. rewrite vset_lt by (rewrite upd_length; auto).
  eexists. split; [reflexivity|]. rewrite !upd_length. split; auto.
  intro p. rewrite !upd_nth, upd_length. unfold sw.
  destruct (Nat.eqb_spec b p), (Nat.eqb_spec a p), (Nat.eqb_spec p a), (Nat.eqb_spec p b);
    subst; try congruence;
    repeat match goal with |- context [?x <? ?y] => destruct (Nat.ltb_spec x y); try lia end; congruence.
Qed.

Lemma sw_lt a b p n : a < n -> b < n -> (sw a b p < n <-> p < n).
Proof. intros. unfold sw. destruct (Nat.eqb_spec p a), (Nat.eqb_spec p b); subst; lia. Qed.
Lemma sw_inv a b p : sw a b (sw a b p) = p.
Proof.
  unfold sw. destruct (Nat.eqb_spec p a), (Nat.eqb_spec p b); subst;
  repeat match goal with |- context [?x =? ?y] => destruct (Nat.eqb_spec x y) end; subst; congruence.
Qed.

Lemma heap_swap_ok h a b : HS h -> a < hlen h -> b < hlen h ->
  exists h', heap_swap h a b = Ret h' /\ HS h' /\ h_values h' = h_values h /\
    hlen h' = hlen h /\ (forall p, p < hlen h -> idx h' p = idx h (sw a b p)) /\
    (forall i, In i (h_heap h') <-> In i (h_heap h)) /\
    length (h_pos h') = length (h_pos h).
Proof.
  intros H Ha Hb. unfold heap_swap.
  pose proof (idx_nth h a Ha) as Ea. pose proof (idx_nth h b Hb) as Eb.
  destruct (vswap_ok _ _ _ _ _ Ea Eb) as (hp & -> & Lhp & Hhp). cbn [bind].
  assert (Ga : nth_error hp a = Some (idx h b)).
  { rewrite Hhp. unfold sw. rewrite Nat.eqb_refl. auto. }
  assert (Gb : nth_error hp b = Some (idx h a)).
  { rewrite Hhp. unfold sw. rewrite Nat.eqb_refl. destruct (Nat.eqb_spec b a); subst; auto. }
  rewrite (proj2 (vget_ok _ _ _) Ga), (proj2 (vget_ok _ _ _) Gb). cbn [bind].
  destruct (vswap_ok _ _ _ _ _ (hs_idx_pos h b H Hb) (hs_idx_pos h a H Ha)) as (ps & -> & Lps & Hps).
  cbn [bind]. eexists. split; [reflexivity|]. cbn [h_values h_pos h_heap]. unfold hlen in *. cbn [h_heap].
  assert (Hidx : forall p, p < length (h_heap h) -> nth_error hp p = Some (idx h (sw a b p))).
  { intros p Hp. rewrite Hhp. apply idx_nth. apply sw_lt; auto. }
  assert (Hpi : forall p, p < length (h_heap h) ->
     nth_error ps (idx h p) = Some (Some (sw a b p))).
  { intros p Hp. rewrite Hps. unfold sw.
    destruct (Nat.eqb_spec (idx h p) (idx h b)).
    - assert (p = b).
      { assert (E1 := hs_idx_pos h p H Hp). assert (E2 := hs_idx_pos h b H Hb). rewrite e in E1. congruence. }
      subst. rewrite (hs_idx_pos h a H Ha). destruct (Nat.eqb_spec b a); subst; auto.
      rewrite Nat.eqb_refl. auto.
    - destruct (Nat.eqb_spec (idx h p) (idx h a)).
      + assert (p = a).
        { assert (E1 := hs_idx_pos h p H Hp). assert (E2 := hs_idx_pos h a H Ha). rewrite e in E1. congruence. }
        subst. rewrite Nat.eqb_refl. apply (hs_idx_pos h b H Hb).
      + rewrite (hs_idx_pos h p H Hp).
        destruct (Nat.eqb_spec p a); [subst; congruence|]. destruct (Nat.eqb_spec p b); [subst; congruence|]. auto. }
  split; [split; cbn [h_values h_pos h_heap]|].
  - rewrite Lps. apply (hs_len h H).
  - intros p i E. assert (Hp : p < length (h_heap h)) by (rewrite <- Lhp; apply nth_error_Some; congruence).
    rewrite Hidx in E by auto. injection E as <-.
    rewrite Hpi by (apply sw_lt; auto). rewrite sw_inv. auto.
  - intros i p E.
    assert (exists q, q < length (h_heap h) /\ i = idx h q) as (q & Hq & ->).
    { rewrite Hps in E. unfold sw in E.
      destruct (Nat.eqb_spec i (idx h b)); [eauto|]. destruct (Nat.eqb_spec i (idx h a)); [eauto|].
      apply (hs_heap h H) in E. exists p. split; [apply nth_error_Some; congruence|].
      symmetry. apply nth_error_nth. auto. }
    rewrite Hpi in E by auto. injection E as <-. rewrite Hidx by (apply sw_lt; auto). rewrite sw_inv. auto.
  - split; auto. split; [auto|]. split; [|split].
    + intros p Hp. unfold idx at 1. cbn [h_heap]. apply nth_error_nth. apply Hidx; auto.
    + intro i. split; intro Hi; apply In_nth_error in Hi as [p E].
      * rewrite Hhp in E. eapply nth_error_In; eauto.
      * eapply (nth_error_In _ (sw a b p)). rewrite Hhp, sw_inv. eauto.
    + auto.
Qed.

Lemma hval_swap h h' a b p : h_values h' = h_values h -> p < hlen h ->
  (forall p, p < hlen h -> idx h' p = idx h (sw a b p)) -> hval h' p = hval h (sw a b p).
Proof. intros Hv Hp Hi. unfold hval. rewrite Hv, Hi; auto. Qed.

(** What every reordering keeps. *)
Definition same_heap (h h' : heap) : Prop :=
  HS h' /\ h_values h' = h_values h /\ hlen h' = hlen h /\
  (forall i, In i (h_heap h') <-> In i (h_heap h)) /\
  length (h_pos h') = length (h_pos h).

Lemma same_refl h : HS h -> same_heap h h.
Proof. unfold same_heap. intuition. Qed.
Lemma same_trans h1 h2 h3 : same_heap h1 h2 -> same_heap h2 h3 -> same_heap h1 h3.
Proof.
  unfold same_heap. intros (A & B & C & D & E) (A' & B' & C' & D' & E').
  repeat split; try congruence; try apply A'; intro; [apply D, D'|apply D', D]; auto.
Qed.

(** Order except between [pos] and its parent. *)
Definition HOup (h : heap) (pos : nat) : Prop :=
  (forall p, 0 < p -> p < hlen h -> p <> pos -> (hval h p <= hval h (par p))%N) /\
  (forall p, 0 < p -> p < hlen h -> par p = pos -> 0 < pos -> (hval h p <= hval h (par pos))%N).

Lemma root_loop_ok fuel : forall h pos, HS h -> pos < hlen h -> pos <= fuel ->
  exists h', root_loop fuel h (hval h pos) pos = Ret h' /\ same_heap h h' /\
    (HOup h pos -> HO h').
Proof.
  induction fuel; intros h pos H Hp Hf.
  - assert (pos = 0) as -> by lia. simpl. exists h. split; auto. split; [apply same_refl; auto|].
    intros [U _] p Hp1 Hp2. apply U; auto; lia.
  - destruct pos as [|pos'].
    + simpl. exists h. split; auto. split; [apply same_refl; auto|].
      intros [U _] p Hp1 Hp2. apply U; auto; lia.
    + remember (S pos') as pos eqn:Epos. cbn [root_loop].
      replace (match pos with 0 => Ret h | S _ => _ end) with
        (let* pv := value_at h (par pos) in
          if (pv <? hval h pos)%N then
            let* h' := heap_swap h pos (par pos) in root_loop fuel h' (hval h pos) (par pos)
          else Ret h) by (rewrite Epos; reflexivity).
      pose proof (par_lt pos ltac:(lia)) as Hpar.
      rewrite value_at_ok by (auto; lia). cbn [bind].
      destruct (N.ltb_spec (hval h (par pos)) (hval h pos)) as [Hlt|Hge].
      * destruct (heap_swap_ok h pos (par pos) H Hp ltac:(lia)) as (h1 & -> & H1 & Hv1 & Hl1 & Hi1 & Hm1 & Hlp1).
        cbn [bind].
        assert (Hval : forall p, p < hlen h -> hval h1 p = hval h (sw pos (par pos) p)).
        { intros. apply hval_swap; auto. }
        assert (E : hval h pos = hval h1 (par pos)).
        { rewrite Hval by lia. f_equal. unfold sw. rewrite Nat.eqb_refl.
          destruct (Nat.eqb_spec (par pos) pos); auto; lia. }
        rewrite E.
        destruct (IHfuel h1 (par pos) H1 ltac:(lia) ltac:(lia)) as (h2 & -> & Hs2 & Ho2).
        exists h2. split; auto. split.
        { eapply same_trans; [|exact Hs2]. repeat split; auto; try apply H1; apply Hm1. }
        intros [U1 U2]. apply Ho2. split.
        -- intros p Hp1 Hp2 Hne. rewrite Hl1 in Hp2.
           pose proof (par_lt p Hp1).
           rewrite (Hval p), (Hval (par p)) by lia. unfold sw.
           destruct (Nat.eqb_spec p pos) as [->|Hn1].
           { rewrite Nat.eqb_refl. destruct (Nat.eqb_spec (par pos) pos); lia. }
           destruct (Nat.eqb_spec p (par pos)); [congruence|].
           destruct (Nat.eqb_spec (par p) pos) as [E2|].
           { apply U2; auto. lia. }
           destruct (Nat.eqb_spec (par p) (par pos)) as [E2|].
           { pose proof (U1 p Hp1 Hp2 Hn1) as U. rewrite E2 in U. lia. }
           apply U1; auto.
        -- intros p Hp1 Hp2 Hpp Hpos0. rewrite Hl1 in Hp2. pose proof (par_lt (par pos) Hpos0).
           rewrite (Hval p), (Hval (par (par pos))) by lia.
           assert (G : (hval h (par pos) <= hval h (par (par pos)))%N).
           { apply U1; lia. }
           unfold sw at 2. destruct (Nat.eqb_spec (par (par pos)) pos); [lia|].
           destruct (Nat.eqb_spec (par (par pos)) (par pos)); [lia|].
           unfold sw. destruct (Nat.eqb_spec p pos) as [->|Hn1]; [auto|].
           destruct (Nat.eqb_spec p (par pos)) as [->|Hn2]; [pose proof (par_lt (par pos) Hpos0); lia|].
           pose proof (U1 p Hp1 Hp2 Hn1) as U. rewrite Hpp in U. lia.
      * exists h. split; auto. split; [apply same_refl; auto|].
        intros [U1 U2] p Hp1 Hp2. destruct (Nat.eq_dec p pos) as [->|]; auto.
Qed.

Lemma move_towards_root_ok h pos : HS h -> pos < hlen h ->
  exists h', move_towards_root h pos = Ret h' /\ same_heap h h' /\ (HOup h pos -> HO h').
Proof.
  intros H Hp. unfold move_towards_root. rewrite value_at_ok by auto. simpl.
  apply root_loop_ok; auto.
Qed.

(** Order except between [pos] and its children. *)
Definition HOdown (h : heap) (pos : nat) : Prop :=
  (forall p, 0 < p -> p < hlen h -> par p <> pos -> (hval h p <= hval h (par p))%N) /\
  (forall p, 0 < p -> p < hlen h -> par p = pos -> 0 < pos -> (hval h p <= hval h (par pos))%N).

(** One round of [leaves_loop]: the position to continue with. *)
Definition down_target (h : heap) (pos : nat) : nat :=
  let '(sp, sv) :=
    if pos * 2 + 1 <? hlen h
    then if (hval h pos <? hval h (pos * 2 + 1))%N then (pos * 2 + 1, hval h (pos * 2 + 1)) else (pos, hval h pos)
    else (pos, hval h pos) in
  if pos * 2 + 2 <? hlen h then if (sv <? hval h (pos * 2 + 2))%N then pos * 2 + 2 else sp else sp.

Lemma leaves_unfold fuel h pos : HS h -> pos < hlen h ->
  leaves_loop (S fuel) h (hval h pos) pos =
  if down_target h pos =? pos then Ret h
  else let* h' := heap_swap h pos (down_target h pos) in leaves_loop fuel h' (hval h pos) (down_target h pos).
Proof.
  intros H Hp. cbn [leaves_loop]. unfold down_target. fold (hlen h).
  destruct (Nat.ltb_spec (pos * 2 + 1) (hlen h)).
  - rewrite value_at_ok by auto. cbn [bind].
    destruct (hval h pos <? hval h (pos * 2 + 1))%N; cbn [bind].
    + destruct (Nat.ltb_spec (pos * 2 + 2) (hlen h)); [|reflexivity].
      rewrite value_at_ok by auto. cbn [bind].
      destruct (hval h (pos * 2 + 1) <? hval h (pos * 2 + 2))%N; reflexivity.
    + destruct (Nat.ltb_spec (pos * 2 + 2) (hlen h)); [|reflexivity].
      rewrite value_at_ok by auto. cbn [bind].
      destruct (hval h pos <? hval h (pos * 2 + 2))%N; reflexivity.
  - cbn [bind]. destruct (Nat.ltb_spec (pos * 2 + 2) (hlen h)); [lia|]. reflexivity.
Qed.

Lemma down_target_cases h pos :
  let t := down_target h pos in
  (t = pos /\ (forall p, 0 < p -> p < hlen h -> par p = pos -> (hval h p <= hval h pos)%N)) \/
  (0 < t /\ pos < t /\ t < hlen h /\ par t = pos /\ (hval h pos < hval h t)%N /\
   (forall p, 0 < p -> p < hlen h -> par p = pos -> (hval h p <= hval h t)%N)).
Proof.
  assert (D : forall p, 0 < p -> par p = pos -> p = pos * 2 + 1 \/ p = pos * 2 + 2).
  { intros p Hp E. apply par_inv in E; auto. lia. }
  unfold down_target.
  destruct (Nat.ltb_spec (pos * 2 + 1) (hlen h)).
  - destruct (N.ltb_spec (hval h pos) (hval h (pos * 2 + 1))).
    + destruct (Nat.ltb_spec (pos * 2 + 2) (hlen h)).
      * destruct (N.ltb_spec (hval h (pos * 2 + 1)) (hval h (pos * 2 + 2))); right;
        (repeat split; try lia; try apply par_left; try apply par_right;
         intros p Hp1 Hp2 Hpp; destruct (D p Hp1 Hpp) as [-> | ->]; lia).
      * right; repeat split; try lia; try apply par_left;
         intros p Hp1 Hp2 Hpp; destruct (D p Hp1 Hpp) as [-> | ->]; lia.
    + destruct (Nat.ltb_spec (pos * 2 + 2) (hlen h)).
      * destruct (N.ltb_spec (hval h pos) (hval h (pos * 2 + 2))).
        -- right; repeat split; try lia; try apply par_right;
           intros p Hp1 Hp2 Hpp; destruct (D p Hp1 Hpp) as [-> | ->]; lia.
        -- left; split; auto; intros p Hp1 Hp2 Hpp; destruct (D p Hp1 Hpp) as [-> | ->]; lia.
      * left; split; auto; intros p Hp1 Hp2 Hpp; destruct (D p Hp1 Hpp) as [-> | ->]; lia.
  - destruct (Nat.ltb_spec (pos * 2 + 2) (hlen h)); [lia|].
    left; split; auto; intros p Hp1 Hp2 Hpp; destruct (D p Hp1 Hpp) as [-> | ->]; lia.
Qed.

Lemma leaves_loop_ok fuel : forall h pos, HS h -> pos < hlen h -> hlen h - pos < fuel ->
  exists h', leaves_loop fuel h (hval h pos) pos = Ret h' /\ same_heap h h' /\
    (HOdown h pos -> HO h').
Proof.
  induction fuel; intros h pos H Hp Hf; [lia|].
  rewrite leaves_unfold by auto.
  pose proof (down_target_cases h pos) as D. cbv zeta in D.
  set (t := down_target h pos) in *. destruct D as [[Et Dm]|(Ht0 & Htp & Htl & Htpar & Hlt & Dm)].
  - rewrite Et, Nat.eqb_refl. exists h. split; auto. split; [apply same_refl; auto|].
    intros [U1 U2] p Hp1 Hp2. destruct (Nat.eq_dec (par p) pos) as [E|E]; auto. rewrite E. auto.
  - destruct (Nat.eqb_spec t pos); [lia|].
    destruct (heap_swap_ok h pos t H Hp Htl) as (h1 & -> & H1 & Hv1 & Hl1 & Hi1 & Hm1 & Hlp1).
    cbn [bind].
    assert (Hval : forall p, p < hlen h -> hval h1 p = hval h (sw pos t p)).
    { intros. apply hval_swap; auto. }
    assert (E : hval h pos = hval h1 t).
    { rewrite Hval by lia. f_equal. unfold sw. rewrite Nat.eqb_refl.
      destruct (Nat.eqb_spec t pos); auto; lia. }
    rewrite E.
    destruct (IHfuel h1 t H1 ltac:(lia) ltac:(lia)) as (h2 & -> & Hs2 & Ho2).
    exists h2. split; auto. split.
    { eapply same_trans; [|exact Hs2]. repeat split; auto; try apply H1; apply Hm1. }
    intros [U1 U2]. apply Ho2. split.
    + intros p Hp1 Hp2 Hne. rewrite Hl1 in Hp2. pose proof (par_lt p Hp1).
      rewrite (Hval p), (Hval (par p)) by lia. unfold sw.
      destruct (Nat.eqb_spec p pos) as [->|Hn1].
      { destruct (Nat.eqb_spec (par pos) pos); [lia|].
        destruct (Nat.eqb_spec (par pos) t); [lia|]. apply U2; auto. }
      destruct (Nat.eqb_spec p t) as [->|Hn2].
      { rewrite Htpar, Nat.eqb_refl. lia. }
      destruct (Nat.eqb_spec (par p) pos) as [E2|].
      { apply Dm; auto. }
      destruct (Nat.eqb_spec (par p) t); [congruence|]. apply U1; auto.
    + intros p Hp1 Hp2 Hpp _. rewrite Hl1 in Hp2. rewrite Htpar. pose proof (par_lt p Hp1).
      rewrite (Hval p), (Hval pos) by lia. unfold sw. rewrite Nat.eqb_refl.
      destruct (Nat.eqb_spec p pos); [lia|]. destruct (Nat.eqb_spec p t); [lia|].
      rewrite <- Hpp. apply U1; auto. lia.
Qed.

Lemma move_towards_leaves_ok h pos : HS h -> pos < hlen h ->
  exists h', move_towards_leaves h pos = Ret h' /\ same_heap h h' /\ (HOdown h pos -> HO h').
Proof.
  intros H Hp. unfold move_towards_leaves. rewrite value_at_ok by auto. cbn [bind].
  apply leaves_loop_ok; auto. unfold hlen. lia.
Qed.

(** ** Queue operations *)

Lemma pos_in_some h p : HS h -> forall i, nth_error (h_pos h) i = Some p -> pos_in h p = p.
Proof.
  intros H i E. destruct p as [p|]; auto. simpl. apply (hs_heap h H) in E.
  assert (p < length (h_heap h)) by (apply nth_error_Some; congruence).
  destruct (Nat.ltb_spec p (length (h_heap h))); auto; lia.
Qed.

Lemma hs_in_iff h i : HS h -> In i (h_heap h) <-> exists p, nth_error (h_pos h) i = Some (Some p).
Proof.
  intro H. split.
  - intro Hi. apply In_nth_error in Hi as [p E]. exists p. apply (hs_pos h H); auto.
  - intros [p E]. apply (hs_heap h H) in E. eapply nth_error_In; eauto.
Qed.

Lemma hs_in_lt h i : HS h -> In i (h_heap h) -> i < length (h_values h).
Proof.
  intros H Hi. apply hs_in_iff in Hi as [p E]; auto. rewrite <- (hs_len h H).
  apply nth_error_Some. congruence.
Qed.

Lemma is_enqueued_ok h i : HS h -> i < length (h_values h) ->
  exists b, is_enqueued h i = Ret b /\ (b = true <-> In i (h_heap h)).
Proof.
  intros H Hi. rewrite <- (hs_len h H) in Hi. unfold is_enqueued.
  destruct (vget_in _ _ Hi) as [p E]. rewrite E. simpl. apply vget_ok in E.
  rewrite (pos_in_some h p H _ E). eexists. split; [reflexivity|].
  rewrite hs_in_iff by auto. destruct p; split; intro G; eauto; try discriminate.
  destruct G as [q G]. congruence.
Qed.

(** Appending an index that is not enqueued. *)
Lemma hs_append h i : HS h -> i < length (h_values h) -> ~ In i (h_heap h) ->
  HS (mkHeap (h_values h) (upd (h_pos h) i (Some (hlen h))) (h_heap h ++ [i])).
Proof.
  intros H Hi Hn. split; cbn [h_values h_pos h_heap].
  - rewrite upd_length. apply (hs_len h H).
  - intros p j E. destruct (Nat.lt_ge_cases p (length (h_heap h))).
    + rewrite nth_error_app1 in E by auto.
      rewrite upd_other; [apply (hs_pos h H); auto|]. intros ->. apply Hn. eapply nth_error_In; eauto.
    + rewrite nth_error_app2 in E by auto.
      assert (p = length (h_heap h)) as ->.
      { destruct (p - length (h_heap h)) eqn:D; [lia|]. simpl in E. destruct n; discriminate. }
      rewrite Nat.sub_diag in E. injection E as <-. apply upd_same. rewrite (hs_len h H). auto.
  - intros j p E. rewrite upd_nth in E. destruct (Nat.eqb_spec i j) as [->|].
    + rewrite (hs_len h H) in E. destruct (Nat.ltb_spec j (length (h_values h))); [|lia].
      injection E as <-. unfold hlen. rewrite nth_error_app2, Nat.sub_diag by lia. auto.
    + apply (hs_heap h H) in E. rewrite nth_error_app1; auto. apply nth_error_Some. congruence.
Qed.

Lemma hval_app vals ps hp i p : p < length hp ->
  hval (mkHeap vals ps (hp ++ [i])) p = nth (nth p hp 0) vals 0%N.
Proof. intro H. unfold hval, idx. cbn [h_heap h_values]. rewrite app_nth1; auto. Qed.

Lemma enqueue_ok h i : HS h -> i < length (h_values h) ->
  exists h', enqueue h i = Ret h' /\ HS h' /\ h_values h' = h_values h /\
    (forall j, In j (h_heap h') <-> In j (h_heap h) \/ j = i) /\ (HO h -> HO h').
Proof.
  intros H Hi. unfold enqueue. pose proof Hi as Hi'. rewrite <- (hs_len h H) in Hi'.
  destruct (vget_in _ _ Hi') as [p E]. rewrite E. simpl. apply vget_ok in E.
  rewrite (pos_in_some h p H _ E). destruct p as [p|].
  - exists h. split; auto. split; auto. split; auto. split; auto.
    intro j. split; [auto|]. intros [?| ->]; auto. apply hs_in_iff; eauto.
  - assert (Hn : ~ In i (h_heap h)) by (rewrite hs_in_iff by auto; intros [q Hq]; congruence).
    rewrite vset_lt by auto. cbn [bind]. fold (hlen h).
    pose proof (hs_append h i H Hi Hn) as H1. set (h1 := mkHeap _ _ _) in *.
    assert (L1 : hlen h1 = S (hlen h)) by (unfold h1, hlen; simpl; rewrite app_length; simpl; lia).
    destruct (move_towards_root_ok h1 (hlen h) H1 ltac:(lia)) as (h' & -> & (S1 & S2 & S3 & S4 & S5) & Ho).
    exists h'. split; auto. split; auto. split; auto. split.
    + intro j. rewrite S4. unfold h1. simpl. rewrite in_app_iff. simpl. intuition.
    + intro HOh. apply Ho.
      assert (V : forall p, p < hlen h -> hval h1 p = hval h p).
      { intros p Hp. unfold h1. rewrite hval_app by auto. reflexivity. }
      split.
      * intros p Hp1 Hp2 Hne. rewrite L1 in Hp2. pose proof (par_lt p Hp1).
        rewrite !V by lia. apply HOh; lia.
      * intros p Hp1 Hp2 Hpp Hpos. pose proof (par_lt p Hp1). lia.
Qed.

(** Removing the last heap entry. *)
Lemma hs_remove_last h i : HS h -> 0 < hlen h -> idx h (hlen h - 1) = i ->
  exists h1, heap_clear_pos h i = Ret h1 /\ HS (heap_pop_last h1) /\
    h_values (heap_pop_last h1) = h_values h /\ hlen (heap_pop_last h1) = hlen h - 1 /\
    (forall p, p < hlen h - 1 -> idx (heap_pop_last h1) p = idx h p) /\
    (forall j, In j (h_heap (heap_pop_last h1)) <-> In j (h_heap h) /\ j <> i) /\
    length (h_pos h1) = length (h_pos h).
Proof.
  intros H Hl Hi. unfold heap_clear_pos.
  assert (Hp : hlen h - 1 < hlen h) by lia.
  assert (Hil : i < length (h_pos h)).
  { apply nth_error_Some. rewrite <- Hi, (hs_idx_pos h _ H Hp). discriminate. }
  rewrite vset_lt by auto. cbn [bind]. eexists. split; [reflexivity|].
  unfold heap_pop_last; cbn [h_values h_pos h_heap]. unfold hlen in *; cbn [h_heap].
  assert (Hne : h_heap h <> []) by (destruct (h_heap h); simpl in *; [lia|discriminate]).
  pose proof (app_removelast_last 0 Hne) as Sp.
  assert (Ll : last (h_heap h) 0 = i).
  { rewrite <- Hi. unfold idx. rewrite Sp at 2 3. rewrite app_length. simpl.
    rewrite app_nth2 by lia. replace (_ - _) with 0 by lia. reflexivity. }
  rewrite Ll in Sp. set (hp := removelast (h_heap h)) in *.
  assert (Lhp : length (h_heap h) = S (length hp)) by (rewrite Sp, app_length; simpl; lia).
  assert (Ent : forall p, p < length hp -> nth_error hp p = nth_error (h_heap h) p).
  { intros p Hlt. rewrite Sp. rewrite nth_error_app1; auto. }
  pose proof (hs_nodup h H) as ND. rewrite Sp in ND. apply NoDup_remove in ND as [ND Nin].
  rewrite app_nil_r in ND, Nin.
  split; [split; cbn [h_values h_pos h_heap]|].
  - rewrite upd_length. apply (hs_len h H).
  - intros p j E. assert (Hlt : p < length hp) by (apply nth_error_Some; congruence).
    rewrite upd_other; [|intros ->; apply Nin; eapply nth_error_In; eauto].
    apply (hs_pos h H). rewrite <- Ent; auto.
  - intros j p E. rewrite upd_nth in E. destruct (Nat.eqb_spec i j) as [->|Hij].
    + destruct (_ <? _) in E; congruence.
    + apply (hs_heap h H) in E. rewrite Ent; auto.
      assert (p < length (h_heap h)) by (apply nth_error_Some; congruence).
      destruct (Nat.eq_dec p (length hp)); [|lia]. subst p.
      rewrite Sp in E. rewrite nth_error_app2, Nat.sub_diag in E by lia. simpl in E. congruence.
  - split; auto. split; [lia|]. split; [|split].
    + intros p Hlt. unfold idx. cbn [h_heap]. fold hp. rewrite Sp. rewrite app_nth1 by lia. auto.
    + intro j. rewrite Sp, in_app_iff. simpl. split.
      * intro Hj. split; auto. intros ->. auto.
      * intros [[?|[?|[]]] ?]; auto. congruence.
    + apply upd_length.
Qed.

Definition minus (h h' : heap) (i : nat) : Prop :=
  HS h' /\ h_values h' = h_values h /\ (forall j, In j (h_heap h') <-> In j (h_heap h) /\ j <> i).

Lemma dequeue_ok h i : HS h -> i < length (h_values h) ->
  exists h', dequeue h i = Ret h' /\ minus h h' i.
Proof.
  intros H Hi. unfold dequeue. pose proof Hi as Hi'. rewrite <- (hs_len h H) in Hi'.
  destruct (vget_in _ _ Hi') as [p E]. rewrite E. cbn [bind]. apply vget_ok in E.
  rewrite (pos_in_some h p H _ E). destruct p as [p|].
  - pose proof (hs_heap h H _ _ E) as Ep.
    assert (Hp : p < hlen h) by (apply nth_error_Some; congruence).
    assert (Ip : idx h p = i) by (unfold idx; apply nth_error_nth; auto).
    fold (hlen h). destruct (Nat.eqb_spec (hlen h - 1) p) as [El|Hnl].
    + destruct (hs_remove_last h i H ltac:(lia)) as (h1 & -> & R1 & R2 & R3 & R4 & R5 & R6).
      { rewrite El. auto. }
      cbn [bind]. eexists. split; [reflexivity|]. split; auto.
    + destruct (heap_swap_ok h (hlen h - 1) p H ltac:(lia) Hp) as (h1 & -> & H1 & Hv1 & Hl1 & Hi1 & Hm1 & Hlp1).
      cbn [bind].
      destruct (hs_remove_last h1 i H1 ltac:(lia)) as (h2 & -> & R1 & R2 & R3 & R4 & R5 & R6).
      { rewrite Hl1, Hi1 by lia. unfold sw. rewrite Nat.eqb_refl. auto. }
      cbn [bind].
      assert (Hm : forall j, In j (h_heap (heap_pop_last h2)) <-> In j (h_heap h) /\ j <> i).
      { intro j. rewrite R5, Hm1. tauto. }
      rewrite value_at_ok by (auto; lia). cbn [bind].
      rewrite R2, Hv1. destruct (vget_in _ _ Hi) as [rv ->]. cbn [bind].
      destruct (rv <? _)%N.
      * destruct (move_towards_leaves_ok (heap_pop_last h2) p R1 ltac:(lia)) as (h' & -> & (S1 & S2 & S3 & S4 & S5) & _).
        exists h'. split; auto. split; auto. split; [congruence|]. intro j. rewrite S4. apply Hm.
      * destruct (move_towards_root_ok (heap_pop_last h2) p R1 ltac:(lia)) as (h' & -> & (S1 & S2 & S3 & S4 & S5) & _).
        exists h'. split; auto. split; auto. split; [congruence|]. intro j. rewrite S4. apply Hm.
  - exists h. split; auto. split; auto. split; auto. intro j. split; [|tauto].
    intro Hj. split; auto. intros ->. apply hs_in_iff in Hj as [q Hq]; auto. congruence.
Qed.

Lemma ho_root_max h : HO h -> forall p, p < hlen h -> (hval h p <= hval h 0)%N.
Proof.
  intro H. induction p as [p IH] using lt_wf_ind. intro Hp.
  destruct p as [|p']; [lia|]. set (p := S p') in *.
  pose proof (par_lt p ltac:(lia)). etransitivity; [apply H; lia|]. apply IH; lia.
Qed.

Lemma pop_max_ok h : HS h ->
  match h_heap h with
  | [] => pop_max h = Ret (None, h)
  | i :: _ => exists h', pop_max h = Ret (Some i, h') /\ minus h h' i /\
      (HO h -> HO h' /\ forall j, In j (h_heap h) -> (nth j (h_values h) 0 <= nth i (h_values h) 0)%N)
  end.
Proof.
  intro H. unfold pop_max. destruct (h_heap h) as [|i r] eqn:Eh; [reflexivity|].
  assert (Hl : 0 < hlen h) by (unfold hlen; rewrite Eh; simpl; lia).
  assert (I0 : idx h 0 = i) by (unfold idx; rewrite Eh; reflexivity).
  rewrite <- Eh. fold (hlen h).
  assert (Hmax : HO h -> forall j, In j (h_heap h) -> (nth j (h_values h) 0 <= nth i (h_values h) 0)%N).
  { intros Ho j Hj. apply In_nth_error in Hj as [p Hp].
    assert (p < hlen h) by (apply nth_error_Some; congruence).
    pose proof (ho_root_max h Ho p H0) as G. unfold hval in G.
    rewrite I0 in G. unfold idx in G. rewrite (nth_error_nth _ _ _ Hp) in G. auto. }
  destruct (Nat.eqb_spec (hlen h - 1) 0) as [El|Hnl].
  - destruct (hs_remove_last h i H Hl) as (h1 & -> & R1 & R2 & R3 & R4 & R5 & R6).
    { rewrite El. auto. }
    cbn [bind]. eexists. split; [reflexivity|]. split; [split; auto|]. intro Ho. split; auto.
    intros p Hp1 Hp2. lia.
  - destruct (heap_swap_ok h (hlen h - 1) 0 H ltac:(lia) Hl) as (h1 & -> & H1 & Hv1 & Hl1 & Hi1 & Hm1 & Hlp1).
    cbn [bind].
    destruct (hs_remove_last h1 i H1 ltac:(lia)) as (h2 & -> & R1 & R2 & R3 & R4 & R5 & R6).
    { rewrite Hl1, Hi1 by lia. unfold sw. rewrite Nat.eqb_refl. auto. }
    cbn [bind].
    destruct (move_towards_leaves_ok (heap_pop_last h2) 0 R1 ltac:(lia)) as (h' & -> & (S1 & S2 & S3 & S4 & S5) & Ho).
    cbn [bind]. exists h'. split; auto. split.
    { split; auto. split; [congruence|]. intro j. rewrite S4, R5, Hm1. tauto. }
    intro HOh. split; auto. apply Ho. split; [|lia].
    intros p Hp1 Hp2 Hpp. rewrite R3, Hl1 in Hp2. pose proof (par_lt p Hp1).
    assert (V : forall q, 0 < q -> q < hlen h - 1 -> hval (heap_pop_last h2) q = hval h q).
    { intros q Hq1 Hq2. unfold hval. rewrite R2, Hv1. f_equal. rewrite R4 by lia.
      rewrite Hi1 by lia. unfold sw. destruct (Nat.eqb_spec q (hlen h - 1)); [lia|].
      destruct (Nat.eqb_spec q 0); [lia|]. auto. }
    rewrite !V by lia. apply HOh; lia.
Qed.

Lemma hs_values h vs : HS h -> length vs = length (h_values h) ->
  HS (mkHeap vs (h_pos h) (h_heap h)).
Proof.
  intros H L. split; cbn [h_values h_pos h_heap].
  - rewrite L. apply (hs_len h H).
  - apply (hs_pos h H).
  - apply (hs_heap h H).
Qed.

Lemma increase_ok h i f : HS h -> i < length (h_values h) ->
  exists h', increase h i f = Ret h' /\ HS h' /\
    h_values h' = upd (h_values h) i (f (nth i (h_values h) 0%N)) /\
    (forall j, In j (h_heap h') <-> In j (h_heap h)) /\
    (HO h -> (nth i (h_values h) 0 <= f (nth i (h_values h) 0))%N -> HO h').
Proof.
  intros H Hi. unfold increase. rewrite (vget_nth 0%N) by auto. cbn [bind].
  rewrite vset_lt by auto. cbn [bind h_pos].
  set (v := nth i (h_values h) 0%N). set (vs := upd (h_values h) i (f v)).
  assert (Lvs : length vs = length (h_values h)) by apply upd_length.
  pose proof (hs_values h vs H Lvs) as H1. set (h1 := mkHeap vs (h_pos h) (h_heap h)) in *.
  pose proof Hi as Hi'. rewrite <- (hs_len h H) in Hi'.
  destruct (vget_in _ _ Hi') as [p E]. rewrite E. cbn [bind]. apply vget_ok in E.
  rewrite (pos_in_some h1 p H1 _ E).
  assert (Vo : forall q, q < hlen h -> idx h q <> i -> hval h1 q = hval h q).
  { intros q Hq Hne. unfold hval, h1, idx in *. cbn [h_values h_heap].
    pose proof (hs_idx_lt h q H Hq) as Hlt. unfold idx in Hlt.
    apply nth_error_nth. unfold vs. rewrite upd_other by auto. apply nth_error_nth'. auto. }
  destruct p as [p|].
  - pose proof (hs_heap h H _ _ E) as Ep.
    assert (Hp : p < hlen h) by (apply nth_error_Some; congruence).
    destruct (move_towards_root_ok h1 p H1 Hp) as (h' & -> & (S1 & S2 & S3 & S4 & S5) & Ho).
    exists h'. split; auto. split; auto. split; auto. split; auto.
    intros HOh Hle. apply Ho.
    assert (Ip : idx h p = i) by (unfold idx; apply nth_error_nth; auto).
    assert (Uniq : forall q, q < hlen h -> q <> p -> idx h q <> i).
    { intros q Hq Hne Eq. pose proof (hs_idx_pos h q H Hq) as E1. rewrite Eq in E1. congruence. }
    assert (Vp : hval h1 p = f v).
    { unfold hval, h1, idx. cbn [h_values h_heap]. unfold idx in Ip. rewrite Ip.
      apply nth_error_nth. unfold vs. apply upd_same. auto. }
    assert (Vp' : hval h p = v) by (unfold hval; rewrite Ip; reflexivity).
    split.
    + intros q Hq1 Hq2 Hne. change (hlen h1) with (hlen h) in Hq2. pose proof (par_lt q Hq1).
      rewrite (Vo q) by auto. destruct (Nat.eq_dec (par q) p) as [Epp|Hnp].
      * rewrite Epp, Vp. specialize (HOh q Hq1 Hq2). rewrite Epp, Vp' in HOh.
        etransitivity; [exact HOh|exact Hle].
      * rewrite Vo by (try apply Uniq; auto; lia). apply HOh; auto.
    + intros q Hq1 Hq2 Hpp Hp0. change (hlen h1) with (hlen h) in Hq2.
      pose proof (par_lt q Hq1). pose proof (par_lt p Hp0).
      rewrite (Vo q), (Vo (par p)) by (try apply Uniq; auto; lia).
      etransitivity; [apply HOh; auto|]. rewrite Hpp. apply HOh; auto.
  - exists h1. split; auto. split; auto. split; auto. split; [tauto|].
    intros HOh Hle q Hq1 Hq2. change (hlen h1) with (hlen h) in Hq2. pose proof (par_lt q Hq1).
    assert (Hn : forall r, r < hlen h -> idx h r <> i).
    { intros r Hr Er. pose proof (hs_idx_pos h r H Hr) as G. rewrite Er in G. congruence. }
    rewrite !Vo by (try apply Hn; auto; lia). apply HOh; auto.
Qed.

Lemma apply_monotone_ok h f : HS h ->
  HS (apply_monotone h f) /\ h_values (apply_monotone h f) = map f (h_values h) /\
  (HO h -> (forall a b, (a <= b)%N -> (f a <= f b)%N) -> HO (apply_monotone h f)).
Proof.
  intro H. unfold apply_monotone. split; [apply hs_values; auto; apply map_length|]. split; auto.
  intros HOh Hf p Hp1 Hp2. unfold hlen in Hp2. simpl in Hp2. fold (hlen h) in Hp2.
  pose proof (par_lt p Hp1).
  assert (V : forall q, q < hlen h -> hval (mkHeap (map f (h_values h)) (h_pos h) (h_heap h)) q = f (hval h q)).
  { intros q Hq. unfold hval, idx. cbn [h_values h_heap].
    pose proof (hs_idx_lt h q H Hq) as Hlt. unfold idx in Hlt.
    apply nth_error_nth. rewrite nth_error_map. rewrite (nth_error_nth' _ 0%N Hlt). reflexivity. }
  rewrite !V by lia. apply Hf. apply HOh; auto.
Qed.

Lemma dequeue_all ks : forall h, HS h -> (forall k, In k ks -> k < length (h_values h)) ->
  exists h', foldM dequeue ks h = Ret h' /\ HS h' /\ h_values h' = h_values h /\
    (forall j, In j (h_heap h') <-> In j (h_heap h) /\ ~ In j ks).
Proof.
  induction ks as [|k ks IH]; intros h H Hk; simpl.
  - exists h. repeat split; auto; try apply H; tauto.
  - destruct (dequeue_ok h k H) as (h1 & -> & D1 & D2 & D3); [apply Hk; left; auto|].
    cbn [bind]. destruct (IH h1 D1) as (h' & -> & A & B & C).
    { intros; rewrite D2; apply Hk; right; auto. }
    exists h'. split; auto. split; auto. split; [congruence|].
    intro j. rewrite C, D3. split; [intros [[? ?] ?]|intros [? Hn]]; repeat split; auto.
    intros [->|?]; auto.
Qed.

Lemma enqueue_all ks : forall h, HS h -> (forall k, In k ks -> k < length (h_values h)) ->
  exists h', foldM enqueue ks h = Ret h' /\ HS h' /\ h_values h' = h_values h /\
    (forall j, In j (h_heap h') <-> In j (h_heap h) \/ In j ks) /\ (HO h -> HO h').
Proof.
  induction ks as [|k ks IH]; intros h H Hk; simpl.
  - exists h. repeat split; auto; try apply H; tauto.
  - destruct (enqueue_ok h k H) as (h1 & -> & D1 & D2 & D3 & D4); [apply Hk; left; auto|].
    cbn [bind]. destruct (IH h1 D1) as (h' & -> & A & B & C & D).
    { intros; rewrite D2; apply Hk; right; auto. }
    exists h'. split; auto. split; auto. split; [congruence|]. split; auto.
    intro j. rewrite C, D3. intuition.
Qed.

Lemma heap_resize_ok h len value : HS h -> (N.of_nat len <= 4294967296)%N ->
  exists h', heap_resize h len value = Ret h' /\ HS h' /\
    h_values h' = vresize (h_values h) len value /\
    (forall j, In j (h_heap h') <-> In j (h_heap h) /\ j < len) /\
    (HO h -> length (h_values h) <= len -> HO h').
Proof.
  intros H Hlen. unfold heap_resize. destruct (N.leb_spec (N.of_nat len) 4294967296); [|lia].
  assert (exists h1, (if len <? length (h_values h)
            then foldM dequeue (seq len (length (h_values h) - len)) h else Ret h) = Ret h1 /\
          HS h1 /\ h_values h1 = h_values h /\
          (forall j, In j (h_heap h1) <-> In j (h_heap h) /\ j < len) /\
          (length (h_values h) <= len -> h1 = h)) as (h1 & -> & A & B & C & D).
  { destruct (Nat.ltb_spec len (length (h_values h))).
    - destruct (dequeue_all (seq len (length (h_values h) - len)) h H) as (h1 & -> & A & B & C).
      { intros k Hk. apply in_seq in Hk. lia. }
      exists h1. split; auto. split; auto. split; auto. split; [|lia].
      intro j. rewrite C, in_seq. split.
      + intros [Hj Hn]. split; auto. pose proof (hs_in_lt h j H Hj). lia.
      + intros [Hj Hl]. split; auto. lia.
    - exists h. split; auto. split; auto. split; auto. split; auto.
      intro j. split; [|tauto]. intro Hj. split; auto. pose proof (hs_in_lt h j H Hj). lia. }
  cbn [bind]. eexists. split; [reflexivity|]. cbn [h_values h_heap]. rewrite B.
  assert (Hin : forall j, In j (h_heap h1) -> j < len) by (intros j Hj; apply C; auto).
  split; [split; cbn [h_values h_pos h_heap]|].
  - rewrite !vresize_length. auto.
  - intros p i E. pose proof (Hin i (nth_error_In _ _ E)). rewrite vresize_nth by auto.
    rewrite (hs_pos h1 A _ _ E). auto.
  - intros i p E. assert (i < len).
    { assert (nth_error (vresize (h_pos h1) len None) i <> None) by congruence.
      apply nth_error_Some in H1. rewrite vresize_length in H1. auto. }
    rewrite vresize_nth in E by auto. destruct (nth_error (h_pos h1) i) eqn:E1; [|discriminate].
    apply (hs_heap h1 A). congruence.
  - split; auto. split; auto.
    intros HOh Hle. rewrite (D Hle). intros p Hp1 Hp2. unfold hlen in Hp2. simpl in Hp2. fold (hlen h) in Hp2.
    pose proof (par_lt p Hp1).
    assert (V : forall q, q < hlen h -> hval (mkHeap (vresize (h_values h) len value) (vresize (h_pos h) len None) (h_heap h)) q = hval h q).
    { intros q Hq. unfold hval, idx. cbn [h_values h_heap].
      pose proof (hs_idx_lt h q H Hq) as Hlt. unfold idx in Hlt.
      apply nth_error_nth. rewrite vresize_nth by lia. rewrite (nth_error_nth' _ 0%N Hlt). auto. }
    rewrite !V by lia. apply HOh; auto.
Qed.

Lemma heap_resize_enqueued_ok h len value : HS h -> (N.of_nat len <= 4294967296)%N ->
  exists h', heap_resize_enqueued h len value = Ret h' /\ HS h' /\
    h_values h' = vresize (h_values h) len value /\
    (forall j, In j (h_heap h') <-> (In j (h_heap h) \/ length (h_values h) <= j) /\ j < len) /\
    (HO h -> length (h_values h) <= len -> HO h').
Proof.
  intros H Hlen. unfold heap_resize_enqueued, heap_len.
  destruct (heap_resize_ok h len value H Hlen) as (h1 & -> & A & B & C & D). cbn [bind].
  destruct (enqueue_all (seq (length (h_values h)) (len - length (h_values h))) h1 A) as (h' & -> & A' & B' & C' & D').
  { intros k Hk. apply in_seq in Hk. rewrite B, vresize_length. lia. }
  exists h'. split; auto. split; auto. split; [congruence|]. split; auto.
  intro j. rewrite C', C, in_seq. split; intuition lia.
Qed.

Lemma HS_empty : HS heap_empty.
Proof. split; simpl; auto; intros [|p] i E; discriminate. Qed.
Lemma HO_empty : HO heap_empty.
Proof. intros p _ Hp. unfold hlen in Hp. simpl in Hp. lia. Qed.

(** ** Histories *)
From Verif Require Import Drivers_Heap.

Definition habs (deq : bool) (h : heap) (vals : list N) (M : nat -> bool) : Prop :=
  HS h /\ h_values h = vals /\ (forall i, M i = true <-> In i (h_heap h)) /\ (deq = false -> HO h).

Lemma hist_inv deq h vals M : hist deq h vals M -> habs deq h vals M.
Proof.
  unfold habs.
  induction 1 as [|h vals M n v h' _ (A & B & C & D) Hn Hd E|h vals M n v h' _ (A & B & C & D) Hn Hd E
    |h vals M i h' _ (A & B & C & D) Hi E|h vals M i h' -> _ (A & B & C & D) Hi E
    |h vals M i f h' _ (A & B & C & D) Hi Hf E|h vals M f _ (A & B & C & D) Hf
    |h vals M i h' _ (A & B & C & D) E|h vals M h' _ (A & B & C & D) E].
  - split; [apply HS_empty|]. split; auto. split; [intro; split; simpl; [discriminate|contradiction]|].
    intro. apply HO_empty.
  - destruct (heap_resize_ok h n v A Hn) as (h1 & E1 & A1 & B1 & C1 & D1). rewrite E in E1. inv E1.
    split; auto. split; auto. split.
    + intro i. rewrite C1, andb_true_iff, C, Nat.ltb_lt. tauto.
    + intro Hq. apply D1; auto.
  - destruct (heap_resize_enqueued_ok h n v A Hn) as (h1 & E1 & A1 & B1 & C1 & D1). rewrite E in E1. inv E1.
    split; auto. split; auto. split.
    + intro i. rewrite C1, andb_true_iff, orb_true_iff, C, Nat.ltb_lt, Nat.leb_le. tauto.
    + intro Hq. apply D1; auto.
  - rewrite <- B in Hi. destruct (enqueue_ok h i A Hi) as (h1 & E1 & A1 & B1 & C1 & D1). rewrite E in E1. inv E1.
    split; auto. split; auto. split; auto.
    intro j. rewrite C1, orb_true_iff, C, Nat.eqb_eq. tauto.
  - rewrite <- B in Hi. destruct (dequeue_ok h i A Hi) as (h1 & E1 & A1 & B1 & C1). rewrite E in E1. inv E1.
    split; auto. split; auto. split; [|discriminate].
    intro j. rewrite C1, andb_true_iff, C, negb_true_iff, Nat.eqb_neq. tauto.
  - rewrite <- B in Hi. destruct (increase_ok h i f A Hi) as (h1 & E1 & A1 & B1 & C1 & D1). rewrite E in E1. inv E1.
    split; auto. split; auto. split; auto.
    intro j. rewrite C1. apply C.
  - destruct (apply_monotone_ok h f A) as (A1 & B1 & D1). split; auto. split; [congruence|]. split; auto.
  - pose proof (pop_max_ok h A) as P. destruct (h_heap h) as [|k r] eqn:Eh.
    { rewrite P in E. discriminate. }
    destruct P as (h1 & E1 & (A1 & B1 & C1) & D1). rewrite E in E1. inv E1.
    split; auto. split; auto. split; [|intro Hq; apply D1; auto].
    intro j. rewrite C1, andb_true_iff, C, negb_true_iff, Nat.eqb_neq. rewrite Eh. tauto.
  - pose proof (pop_max_ok h A) as P. destruct (h_heap h) as [|k r] eqn:Eh.
    { rewrite P in E. inv E. split; auto. split; auto. split; auto. rewrite Eh. auto. }
    destruct P as (h1 & E1 & _). rewrite E in E1. discriminate.
Qed.
