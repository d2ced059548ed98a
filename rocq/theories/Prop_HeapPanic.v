(** C103: the heap after a panic of the code passed in. *)
From Coq Require Import NArith List Bool Arith Lia.
From Verif Require Import Model_Base Model_Heap Model_HeapAny Model_HeapPanic Spec Proof_Base Proof_Heap Proof_HeapAny.
Import ListNotations.

(** ** Specification *)
(** What [is_enqueued] and [len] say *)
Definition enqueued (h : shape) (i : nat) : Prop := g_is_enqueued h i = Ret true.
Definition len (h : shape) : nat := g_heap_len h.

Section World.
Context {W : Type} (vlt vgt : W -> nat -> nat -> W * option bool).

(** [panic_hist h w]: some sequence of calls starting from the empty heap leads to the
    heap [h] and the world [w]; each of the calls may have returned or ended with a
    panic of a comparison or a function passed in.  Between the calls the world may
    change in any way. *)
Inductive panic_hist : shape -> W -> Prop :=
| ph_new w : panic_hist g_heap_empty w
| ph_world h w w' : panic_hist h w -> panic_hist h w'
| ph_resize h w n b h' w' : panic_hist h w -> (N.of_nat n <= 4294967296)%N -> p_resize vlt vgt h w n = Ret (b, h', w') -> panic_hist h' w'
| ph_resize_enqueued h w n init b h' w' : panic_hist h w -> (N.of_nat n <= 4294967296)%N -> p_resize_enqueued vlt vgt h w n init = Ret (b, h', w') -> panic_hist h' w'
| ph_enqueue h w i b h' w' : panic_hist h w -> i < len h -> p_enqueue vlt h w i = Ret (b, h', w') -> panic_hist h' w'
| ph_dequeue h w i b h' w' : panic_hist h w -> i < len h -> p_dequeue vlt vgt h w i = Ret (b, h', w') -> panic_hist h' w'
| ph_increase h w i f b h' w' : panic_hist h w -> i < len h -> p_increase vlt h w i f = Ret (b, h', w') -> panic_hist h' w'
| ph_apply h w f b h' w' : panic_hist h w -> p_apply_monotone h w f = (b, h', w') -> panic_hist h' w'
| ph_pop h w o h' w' : panic_hist h w -> p_pop_max vlt h w = Ret (o, h', w') -> panic_hist h' w'.

(** No comparison ever panics. *)
Definition calm : Prop := (forall w i j, snd (vlt w i j) <> None) /\ (forall w i j, snd (vgt w i j) <> None).

(** ** Loops *)
Let ff := fun _ _ : unit => true.
Lemma u_remove_last (h : shape) i : g_HS h -> 0 < g_hlen h -> g_idx h (g_hlen h - 1) = i ->
  exists h1, g_heap_clear_pos h i = Ret h1 /\ g_HS (g_heap_pop_last h1) /\
    g_h_values (g_heap_pop_last h1) = g_h_values h /\ g_hlen (g_heap_pop_last h1) = g_hlen h - 1 /\
    (forall j, In j (g_h_heap (g_heap_pop_last h1)) <-> In j (g_h_heap h) /\ j <> i).
Proof. intros H L E. destruct (g_hs_remove_last ff ff tt h i H L E) as (h1 & A & B & C & D & _ & F & _). exists h1. auto. Qed.
Lemma u_pos_in (h : shape) p i : g_HS h -> nth_error (g_h_pos h) i = Some p -> g_pos_in h p = p.
Proof. intros H E. exact (g_pos_in_some ff ff tt h p H i E). Qed.

Lemma index_ok (h : shape) p : g_HS h -> p < g_hlen h -> p_index_at h p = Ret (g_idx h p).
Proof.
  intros H Hp. unfold p_index_at. rewrite (proj2 (vget_ok _ _ _) (g_idx_nth h p Hp)). cbn [bind].
  destruct (vget_in (g_h_values h) (g_idx h p) (g_hs_idx_lt h p H Hp)) as [x ->]. reflexivity.
Qed.
Lemma u_same_refl (h : shape) : g_HS h -> g_same_heap h h.
Proof. intro H. exact (g_same_refl ff ff tt h H). Qed.
Lemma swap_same (h : shape) a b : g_HS h -> a < g_hlen h -> b < g_hlen h ->
  exists h', g_heap_swap h a b = Ret h' /\ g_same_heap h h'.
Proof. intros H A B. destruct (g_heap_swap_ok h a b H A B) as (h' & E & H1 & H2 & H3 & _ & H4 & H5). exists h'. split; [exact E|]. unfold g_same_heap. auto. Qed.

Lemma root_ok fuel : forall h w value pos, g_HS h -> pos < g_hlen h -> pos <= fuel ->
  exists b h' w', p_root_loop vlt fuel h w value pos = Ret (b, h', w') /\ g_same_heap h h' /\ (calm -> b = true).
Proof.
  induction fuel as [|f IH]; intros h w value pos H Hp Hf.
  - assert (pos = 0) as -> by lia. exists true, h, w. split; [reflexivity|]. split; [apply u_same_refl; auto|auto].
  - destruct pos as [|q]; [exists true, h, w; split; [reflexivity|]; split; [apply u_same_refl; auto|auto]|]. cbn [p_root_loop]. set (pos := S q) in *.
    assert (Hd : (pos - 1) / 2 < pos) by (apply Nat.div_lt_upper_bound; lia). rewrite index_ok by (auto; lia). cbn [bind].
    destruct (vlt w (g_idx h ((pos - 1) / 2)) value) as [w1 [[|]|]] eqn:E.
    + destruct (swap_same h pos ((pos - 1) / 2) H Hp ltac:(lia)) as (h1 & -> & S1). cbn [bind].
      destruct (IH h1 w1 value ((pos - 1) / 2)) as (b & h' & w' & -> & S2 & C); [apply S1|destruct S1 as (_ & _ & -> & _); lia|lia|].
      exists b, h', w'. split; [reflexivity|]. split; [eapply g_same_trans; eauto|exact C].
    + exists true, h, w1. split; [reflexivity|]. split; [apply u_same_refl; auto|auto].
    + exists false, h, w1. split; [reflexivity|]. split; [apply u_same_refl; auto|]. intros [C _]. specialize (C w (g_idx h ((pos - 1) / 2)) value). rewrite E in C. cbn in C. congruence.
Qed.
Lemma move_root_ok h w pos : g_HS h -> pos < g_hlen h ->
  exists b h' w', p_move_towards_root vlt h w pos = Ret (b, h', w') /\ g_same_heap h h' /\ (calm -> b = true).
Proof. intros H Hp. unfold p_move_towards_root. rewrite index_ok by auto. cbn [bind]. apply root_ok; auto. Qed.

Lemma pick_ok h w child sp sv : g_HS h -> exists o w', p_pick vlt h w child sp sv = Ret (o, w') /\ (calm -> o <> None) /\
  forall p v, o = Some (p, v) -> p = sp \/ p = child /\ child < g_hlen h.
Proof.
  intro H. unfold p_pick. fold (g_hlen h). destruct (Nat.ltb_spec child (g_hlen h)) as [L|L].
  - rewrite index_ok by auto. cbn [bind]. destruct (vlt w sv (g_idx h child)) as [w1 [[|]|]] eqn:E; do 2 eexists; (split; [reflexivity|]).
    + split; [congruence|]. intros p v Q. injection Q as <- <-. auto.
    + split; [congruence|]. intros p v Q. injection Q as <- <-. auto.
    + split; [|congruence]. intros [C _]. specialize (C w sv (g_idx h child)). rewrite E in C. cbn in C. congruence.
  - do 2 eexists. split; [reflexivity|]. split; [congruence|]. intros p v Q. injection Q as <- <-. auto.
Qed.
Lemma leaves_ok fuel : forall h w value pos, g_HS h -> pos < g_hlen h -> g_hlen h - pos < fuel ->
  exists b h' w', p_leaves_loop vlt fuel h w value pos = Ret (b, h', w') /\ g_same_heap h h' /\ (calm -> b = true).
Proof.
  induction fuel as [|f IH]; intros h w value pos H Hp Hf; [lia|]. cbn [p_leaves_loop].
  destruct (pick_ok h w (pos * 2 + 1) pos value H) as (o1 & w1 & -> & C1 & D1). cbn [bind]. destruct o1 as [[sp1 sv1]|].
  2: { exists false, h, w1. split; [reflexivity|]. split; [apply u_same_refl; auto|]. intro C. destruct (C1 C eq_refl). }
  destruct (pick_ok h w1 (pos * 2 + 2) sp1 sv1 H) as (o2 & w2 & -> & C2 & D2). cbn [bind]. destruct o2 as [[sp2 sv2]|].
  2: { exists false, h, w2. split; [reflexivity|]. split; [apply u_same_refl; auto|]. intro C. destruct (C2 C eq_refl). }
  specialize (D1 _ _ eq_refl). specialize (D2 _ _ eq_refl).
  destruct (Nat.eqb_spec sp2 pos) as [Q|Q].
  - exists true, h, w2. split; [reflexivity|]. split; [apply u_same_refl; auto|auto].
  - assert (L : pos < sp2 /\ sp2 < g_hlen h) by lia.
    destruct (swap_same h pos sp2 H Hp ltac:(lia)) as (h1 & -> & S1). cbn [bind].
    destruct (IH h1 w2 value sp2) as (b & h' & w' & -> & S2 & C); [apply S1|destruct S1 as (_ & _ & -> & _); lia|destruct S1 as (_ & _ & -> & _); lia|].
    exists b, h', w'. split; [reflexivity|]. split; [eapply g_same_trans; eauto|exact C].
Qed.
Lemma move_leaves_ok h w pos : g_HS h -> pos < g_hlen h ->
  exists b h' w', p_move_towards_leaves vlt h w pos = Ret (b, h', w') /\ g_same_heap h h' /\ (calm -> b = true).
Proof. intros H Hp. unfold p_move_towards_leaves. rewrite index_ok by auto. cbn [bind]. apply leaves_ok; auto. unfold g_hlen. lia. Qed.

(** ** Calls *)
Definition plus (h h' : shape) (i : nat) : Prop :=
  g_HS h' /\ g_h_values h' = g_h_values h /\ (forall j, In j (g_h_heap h') <-> In j (g_h_heap h) \/ j = i).
Lemma enq_ok h w i : g_HS h -> i < length (g_h_values h) ->
  exists b h' w', p_enqueue vlt h w i = Ret (b, h', w') /\ plus h h' i /\ (calm -> b = true).
Proof.
  intros H Hi. unfold p_enqueue. pose proof Hi as Hi'. rewrite <- (g_hs_len h H) in Hi'.
  destruct (vget_in _ _ Hi') as [p E]. rewrite E. cbn [bind]. apply vget_ok in E. rewrite (u_pos_in h p i H E). destruct p as [p|].
  - exists true, h, w. split; [reflexivity|]. split; [|auto]. split; [exact H|]. split; [reflexivity|]. intro j. split; [auto|].
    intros [G| ->]; [exact G|]. apply g_hs_in_iff; eauto.
  - assert (N : ~ In i (g_h_heap h)) by (intro G; apply g_hs_in_iff in G as [q G]; auto; congruence).
    rewrite vset_lt by auto. cbn [bind]. pose proof (g_hs_append ff ff tt h i H Hi N) as H1. fold (g_hlen h). set (h1 := g_mkHeap _ _ _) in *.
    destruct (move_root_ok h1 w (g_hlen h) H1) as (b & h' & w' & -> & (S1 & S2 & S3 & S4 & S5) & C).
    { unfold h1, g_hlen. cbn [g_h_heap]. rewrite app_length. cbn. lia. }
    exists b, h', w'. split; [reflexivity|]. split; [|exact C]. split; [exact S1|]. split; [exact S2|]. intro j. rewrite S4. unfold h1. cbn [g_h_heap].
    rewrite in_app_iff. cbn. intuition.
Qed.
Lemma deq_ok h w i : g_HS h -> i < length (g_h_values h) ->
  exists b h' w', p_dequeue vlt vgt h w i = Ret (b, h', w') /\ g_minus h h' i /\ (calm -> b = true).
Proof.
  intros H Hi. unfold p_dequeue. pose proof Hi as Hi'. rewrite <- (g_hs_len h H) in Hi'.
  destruct (vget_in _ _ Hi') as [p E]. rewrite E. cbn [bind]. apply vget_ok in E. rewrite (u_pos_in h p i H E). destruct p as [p|].
  - pose proof (g_hs_heap h H _ _ E) as Ep.
    assert (Hp : p < g_hlen h) by (apply nth_error_Some; congruence).
    assert (Ip : g_idx h p = i) by (unfold g_idx; apply nth_error_nth; auto).
    fold (g_hlen h). destruct (Nat.eqb_spec (g_hlen h - 1) p) as [El|Hnl].
    + destruct (u_remove_last h i H ltac:(lia)) as (h1 & -> & R1 & R2 & R3 & R5).
      { rewrite El. auto. }
      cbn [bind]. exists true, (g_heap_pop_last h1), w. split; [reflexivity|]. split; [split; auto|auto].
    + destruct (g_heap_swap_ok h (g_hlen h - 1) p H ltac:(lia) Hp) as (h1 & -> & H1 & Hv1 & Hl1 & Hi1 & Hm1 & Hlp1).
      cbn [bind].
      destruct (u_remove_last h1 i H1 ltac:(lia)) as (h2 & -> & R1 & R2 & R3 & R5).
      { rewrite Hl1, Hi1 by lia. unfold sw. rewrite Nat.eqb_refl. auto. }
      cbn [bind].
      assert (Hm : forall j, In j (g_h_heap (g_heap_pop_last h2)) <-> In j (g_h_heap h) /\ j <> i).
      { intro j. rewrite R5, Hm1. tauto. }
      rewrite index_ok by (auto; lia). cbn [bind]. rewrite R2, Hv1. destruct (vget_in _ _ Hi) as [rv ->]. cbn [bind].
      destruct (vgt w (g_idx (g_heap_pop_last h2) p) i) as [w1 [[|]|]] eqn:Ec.
      * destruct (move_leaves_ok (g_heap_pop_last h2) w1 p R1 ltac:(lia)) as (b & h' & w' & -> & (S1 & S2 & S3 & S4 & S5) & C).
        exists b, h', w'. split; [reflexivity|]. split; [|exact C]. split; auto. split; [congruence|]. intro j. rewrite S4. apply Hm.
      * destruct (move_root_ok (g_heap_pop_last h2) w1 p R1 ltac:(lia)) as (b & h' & w' & -> & (S1 & S2 & S3 & S4 & S5) & C).
        exists b, h', w'. split; [reflexivity|]. split; [|exact C]. split; auto. split; [congruence|]. intro j. rewrite S4. apply Hm.
      * exists false, (g_heap_pop_last h2), w1. split; [reflexivity|]. split; [split; [exact R1|]; split; [congruence|exact Hm]|].
        intros [_ C]. specialize (C w (g_idx (g_heap_pop_last h2) p) i). rewrite Ec in C. cbn in C. congruence.
  - exists true, h, w. split; [reflexivity|]. split; [|auto]. split; auto. split; auto. intro j. split; [|tauto].
    intro Hj. split; auto. intros ->. apply g_hs_in_iff in Hj as [q Hq]; auto. congruence.
Qed.
Lemma pop_ok h w : g_HS h ->
  match g_h_heap h with
  | [] => p_pop_max vlt h w = Ret (Some None, h, w)
  | i :: _ => exists b h' w', p_pop_max vlt h w = Ret (if b : bool then Some (Some i) else None, h', w') /\ g_minus h h' i /\ (calm -> b = true)
  end.
Proof.
  intro H. unfold p_pop_max. destruct (g_h_heap h) as [|i r] eqn:Eh; [reflexivity|].
  assert (Hl : 0 < g_hlen h) by (unfold g_hlen; rewrite Eh; simpl; lia).
  assert (I0 : g_idx h 0 = i) by (unfold g_idx; rewrite Eh; reflexivity).
  rewrite <- Eh. fold (g_hlen h). destruct (Nat.eqb_spec (g_hlen h - 1) 0) as [El|Hnl].
  - destruct (u_remove_last h i H Hl) as (h1 & -> & R1 & R2 & R3 & R5).
    { rewrite El. auto. }
    cbn [bind]. exists true, (g_heap_pop_last h1), w. split; [reflexivity|]. split; [split; auto|auto].
  - destruct (g_heap_swap_ok h (g_hlen h - 1) 0 H ltac:(lia) Hl) as (h1 & -> & H1 & Hv1 & Hl1 & Hi1 & Hm1 & Hlp1).
    cbn [bind].
    destruct (u_remove_last h1 i H1 ltac:(lia)) as (h2 & -> & R1 & R2 & R3 & R5).
    { rewrite Hl1, Hi1 by lia. unfold sw. rewrite Nat.eqb_refl. auto. }
    cbn [bind].
    destruct (move_leaves_ok (g_heap_pop_last h2) w 0 R1 ltac:(lia)) as (b & h' & w' & -> & (S1 & S2 & S3 & S4 & S5) & C).
    cbn [bind]. exists b, h', w'. split; [reflexivity|]. split; [|exact C]. split; auto. split; [congruence|]. intro j. rewrite S4, R5, Hm1. tauto.
Qed.
Lemma incr_ok h w i f : g_HS h -> i < length (g_h_values h) ->
  exists b h' w', p_increase vlt h w i f = Ret (b, h', w') /\ g_same_heap h h' /\ (calm -> snd (f w) = true -> b = true).
Proof.
  intros H Hi. unfold p_increase. destruct (vget_in _ _ Hi) as [v ->]. cbn [bind]. destruct (f w) as [w1 [|]].
  - pose proof Hi as Hi'. rewrite <- (g_hs_len h H) in Hi'. destruct (vget_in _ _ Hi') as [p E]. rewrite E. cbn [bind]. apply vget_ok in E.
    rewrite (u_pos_in h p i H E). destruct p as [p|].
    + assert (Hp : p < g_hlen h) by (apply nth_error_Some; rewrite (g_hs_heap h H _ _ E); discriminate).
      destruct (move_root_ok h w1 p H Hp) as (b & h' & w' & -> & S & C). exists b, h', w'. auto.
    + exists true, h, w1. split; [reflexivity|]. split; [apply u_same_refl; auto|auto].
  - exists false, h, w1. split; [reflexivity|]. split; [apply u_same_refl; auto|]. cbn. auto.
Qed.
(** [ks] is the part of the loop that was run. *)
Lemma deq_all n : forall a h w, g_HS h -> a + n <= length (g_h_values h) ->
  exists b h' w' k, p_all (p_dequeue vlt vgt) (seq a n) h w = Ret (b, h', w') /\ g_HS h' /\ g_h_values h' = g_h_values h /\
    (forall j, In j (g_h_heap h') <-> In j (g_h_heap h) /\ ~ (a <= j < k)) /\ (if b then k = a + n else a < k <= a + n) /\ (calm -> b = true).
Proof.
  induction n as [|n IH]; intros a h w H L; cbn [seq p_all].
  - exists true, h, w, a. split; [reflexivity|]. split; [exact H|]. split; [reflexivity|]. split; [intro j; intuition lia|]. split; [lia|auto].
  - destruct (deq_ok h w a H ltac:(lia)) as (b & h1 & w1 & -> & (D1 & D2 & D3) & C). cbn [bind]. destruct b.
    + destruct (IH (S a) h1 w1 D1) as (b & h' & w' & k & -> & A & B & M & K & C'); [rewrite D2; lia|].
      exists b, h', w', k. split; [reflexivity|]. split; [exact A|]. split; [congruence|]. split; [|split; [destruct b; lia|exact C']].
      intro j. rewrite M, D3. destruct b; split; intros; intuition lia.
    + exists false, h1, w1, (S a). split; [reflexivity|]. split; [exact D1|]. split; [exact D2|]. split; [|split; [lia|exact C]].
      intro j. rewrite D3. split; intros; intuition lia.
Qed.
Lemma enq_all n : forall a h w, g_HS h -> a + n <= length (g_h_values h) ->
  exists b h' w' k, p_all (p_enqueue vlt) (seq a n) h w = Ret (b, h', w') /\ g_HS h' /\ g_h_values h' = g_h_values h /\
    (forall j, In j (g_h_heap h') <-> In j (g_h_heap h) \/ a <= j < k) /\ (if b then k = a + n else a < k <= a + n) /\ (calm -> b = true).
Proof.
  induction n as [|n IH]; intros a h w H L; cbn [seq p_all].
  - exists true, h, w, a. split; [reflexivity|]. split; [exact H|]. split; [reflexivity|]. split; [intro j; intuition lia|]. split; [lia|auto].
  - destruct (enq_ok h w a H ltac:(lia)) as (b & h1 & w1 & -> & (D1 & D2 & D3) & C). cbn [bind]. destruct b.
    + destruct (IH (S a) h1 w1 D1) as (b & h' & w' & k & -> & A & B & M & K & C'); [rewrite D2; lia|].
      exists b, h', w', k. split; [reflexivity|]. split; [exact A|]. split; [congruence|]. split; [|split; [destruct b; lia|exact C']].
      intro j. rewrite M, D3. destruct b; split; intros; intuition lia.
    + exists false, h1, w1, (S a). split; [reflexivity|]. split; [exact D1|]. split; [exact D2|]. split; [|split; [lia|exact C]].
      intro j. rewrite D3. split; intros; intuition lia.
Qed.
Lemma resize_shape_ok (h : shape) n : g_HS h -> (forall j, In j (g_h_heap h) -> j < n) ->
  g_HS (g_mkHeap (vresize (g_h_values h) n tt) (vresize (g_h_pos h) n None) (g_h_heap h)).
Proof.
  intros A Hin. split; cbn [g_h_values g_h_pos g_h_heap].
  - rewrite !vresize_length. auto.
  - intros p i E. pose proof (Hin i (nth_error_In _ _ E)). rewrite vresize_nth by auto. rewrite (g_hs_pos h A _ _ E). auto.
  - intros i p E. assert (i < n).
    { assert (X : nth_error (vresize (g_h_pos h) n None) i <> None) by congruence. apply nth_error_Some in X. rewrite vresize_length in X. auto. }
    rewrite vresize_nth in E by auto. destruct (nth_error (g_h_pos h) i) eqn:E1; [|discriminate]. apply (g_hs_heap h A). congruence.
Qed.
Lemma resize_ok h w n : g_HS h -> (N.of_nat n <= 4294967296)%N ->
  exists b h' w', p_resize vlt vgt h w n = Ret (b, h', w') /\ g_HS h' /\ (calm -> b = true) /\
    if b then length (g_h_values h') = n /\ (forall j, In j (g_h_heap h') <-> In j (g_h_heap h) /\ j < n)
    else length (g_h_values h') = length (g_h_values h) /\ exists k, n < k <= length (g_h_values h) /\
      forall j, In j (g_h_heap h') <-> In j (g_h_heap h) /\ ~ (n <= j < k).
Proof.
  intros H Hn. unfold p_resize. destruct (N.leb_spec (N.of_nat n) 4294967296); [|lia]. destruct (Nat.ltb_spec n (length (g_h_values h))) as [L|L].
  - destruct (deq_all (length (g_h_values h) - n) n h w H ltac:(lia)) as (b & h1 & w1 & k & -> & A & B & M & K & C). cbn [bind]. destruct b.
    + assert (Hin : forall j, In j (g_h_heap h1) <-> In j (g_h_heap h) /\ j < n).
      { intro j. rewrite M. split; intros [G1 G2]; split; auto; [|lia]. pose proof (g_hs_in_lt h j H G1). lia. }
      eexists _, _, _. split; [reflexivity|]. split; [apply resize_shape_ok; [exact A|intros j G; apply Hin, G]|]. split; [auto|]. cbn [g_h_values g_h_heap].
      split; [apply vresize_length|exact Hin].
    + exists false, h1, w1. split; [reflexivity|]. split; [exact A|]. split; [exact C|]. split; [congruence|]. exists k. split; [lia|exact M].
  - cbn [bind]. assert (Hin : forall j, In j (g_h_heap h) -> j < n) by (intros j G; pose proof (g_hs_in_lt h j H G); lia).
    eexists _, _, _. split; [reflexivity|]. split; [apply resize_shape_ok; auto|]. split; [auto|]. cbn [g_h_values g_h_heap].
    split; [apply vresize_length|]. intro j. split; [|tauto]. auto.
Qed.
Lemma resize_enq_ok h w n init : g_HS h -> (N.of_nat n <= 4294967296)%N ->
  exists b h' w', p_resize_enqueued vlt vgt h w n init = Ret (b, h', w') /\ g_HS h' /\ (calm -> b = true) /\
    if b then length (g_h_values h') = n /\ (forall j, In j (g_h_heap h') <-> (In j (g_h_heap h) \/ length (g_h_values h) <= j) /\ j < n)
    else (length (g_h_values h') = length (g_h_values h) /\ exists k, n < k <= length (g_h_values h) /\
           forall j, In j (g_h_heap h') <-> In j (g_h_heap h) /\ ~ (n <= j < k)) \/
         (length (g_h_values h') = n /\ exists k, length (g_h_values h) < k <= n /\
           forall j, In j (g_h_heap h') <-> In j (g_h_heap h) \/ length (g_h_values h) <= j < k).
Proof.
  intros H Hn. unfold p_resize_enqueued, g_heap_len. destruct (resize_ok h w n H Hn) as (b & h1 & w1 & -> & A & C & X). cbn [bind]. destruct b.
  - destruct X as [L M]. destruct (Nat.le_gt_cases n (length (g_h_values h))) as [G|G].
    + replace (n - length (g_h_values h)) with 0 by lia. cbn [seq p_all]. exists true, h1, (init w1). split; [reflexivity|]. split; [exact A|]. split; [auto|].
      split; [exact L|]. intro j. rewrite M. split; intros; intuition lia.
    + destruct (enq_all (n - length (g_h_values h)) (length (g_h_values h)) h1 (init w1) A ltac:(lia)) as (b & h' & w' & k & -> & A' & B & M' & K & C').
      exists b, h', w'. split; [reflexivity|]. split; [exact A'|]. split; [exact C'|].
      assert (In_lt : forall j, In j (g_h_heap h) -> j < length (g_h_values h)) by (intros j Q; exact (g_hs_in_lt h j H Q)).
      destruct b.
      * split; [congruence|]. intro j. rewrite M', M. specialize (In_lt j). split; intros; intuition lia.
      * right. split; [congruence|]. exists k. split; [lia|]. intro j. rewrite M', M. specialize (In_lt j). split; intros; intuition lia.
  - exists false, h1, w1. split; [reflexivity|]. split; [exact A|]. split; [exact C|]. left. exact X.
Qed.

Lemma hist_HS h w : panic_hist h w -> g_HS h.
Proof.
  unfold len, g_heap_len.
  induction 1 as [w|h w w' _ IH|h w n b h' w' _ IH Hn E|h w n init b h' w' _ IH Hn E|h w i b h' w' _ IH Hi E|h w i b h' w' _ IH Hi E
    |h w i f b h' w' _ IH Hi E|h w f b h' w' _ IH E|h w o h' w' _ IH E].
  - apply g_HS_empty.
  - exact IH.
  - destruct (resize_ok h w n IH Hn) as (? & ? & ? & E1 & A & _). rewrite E in E1. inversion E1; subst. exact A.
  - destruct (resize_enq_ok h w n init IH Hn) as (? & ? & ? & E1 & A & _). rewrite E in E1. inversion E1; subst. exact A.
  - destruct (enq_ok h w i IH Hi) as (? & ? & ? & E1 & (A & _) & _). rewrite E in E1. inversion E1; subst. exact A.
  - destruct (deq_ok h w i IH Hi) as (? & ? & ? & E1 & (A & _) & _). rewrite E in E1. inversion E1; subst. exact A.
  - destruct (incr_ok h w i f IH Hi) as (? & ? & ? & E1 & (A & _) & _). rewrite E in E1. inversion E1; subst. exact A.
  - unfold p_apply_monotone in E. destruct (p_apply_loop _ _ _). inversion E; subst. exact IH.
  - pose proof (pop_ok h w IH) as P. destruct (g_h_heap h) as [|i r]; [rewrite E in P; inversion P; subst; exact IH|].
    destruct P as (? & ? & ? & E1 & (A & _) & _). rewrite E in E1. inversion E1; subst. exact A.
Qed.
Lemma enqueued_iff h i : g_HS h -> enqueued h i <-> In i (g_h_heap h).
Proof.
  intro H. unfold enqueued. destruct (Nat.lt_ge_cases i (length (g_h_values h))) as [L|L].
  - destruct (g_is_enqueued_ok ff ff tt h i H L) as (b & -> & Q). rewrite <- Q. split; congruence.
  - split; [|intro G; pose proof (g_hs_in_lt h i H G); lia]. unfold g_is_enqueued, vget.
    rewrite (proj2 (nth_error_None _ _)); [discriminate|]. rewrite (g_hs_len h H). exact L.
Qed.

(** ** C103 *)
(** Whatever comparisons and functions do, and whether or not they panic: [is_enqueued]
    answers for every existing index and panics for every other one; each call on
    existing indices returns or passes on a panic; and even in the second case it is
    known which indices are enqueued. *)
Theorem panic_safe h w : panic_hist h w ->
  (forall i, i < len h -> exists b, g_is_enqueued h i = Ret b) /\
  (forall i, len h <= i -> g_is_enqueued h i = Panic PBounds) /\
  (forall i, i < len h -> exists b h' w', p_enqueue vlt h w i = Ret (b, h', w') /\ (calm -> b = true) /\
     len h' = len h /\ forall j, enqueued h' j <-> enqueued h j \/ j = i) /\
  (forall i, i < len h -> exists b h' w', p_dequeue vlt vgt h w i = Ret (b, h', w') /\ (calm -> b = true) /\
     len h' = len h /\ forall j, enqueued h' j <-> enqueued h j /\ j <> i) /\
  (forall i f, i < len h -> exists b h' w', p_increase vlt h w i f = Ret (b, h', w') /\ (calm -> snd (f w) = true -> b = true) /\
     len h' = len h /\ forall j, enqueued h' j <-> enqueued h j) /\
  (exists o h' w', p_pop_max vlt h w = Ret (o, h', w') /\ (calm -> o <> None) /\ len h' = len h /\
     ((o = Some None /\ h' = h /\ forall j, ~ enqueued h j) \/
      exists i, (o = Some (Some i) \/ o = None) /\ enqueued h i /\ forall j, enqueued h' j <-> enqueued h j /\ j <> i)).
Proof.
  intro HH. pose proof (hist_HS h w HH) as H. unfold len, g_heap_len. split; [|split; [|split; [|split; [|split]]]].
  - intros i L. destruct (g_is_enqueued_ok ff ff tt h i H L) as (b & E & _). eauto.
  - intros i L. unfold g_is_enqueued, vget. rewrite (proj2 (nth_error_None _ _)); [reflexivity|]. rewrite (g_hs_len h H). exact L.
  - intros i L. destruct (enq_ok h w i H L) as (b & h' & w' & E & (A & B & C) & D). exists b, h', w'. split; [exact E|]. split; [exact D|]. split; [congruence|].
    intro j. rewrite !enqueued_iff by auto. apply C.
  - intros i L. destruct (deq_ok h w i H L) as (b & h' & w' & E & (A & B & C) & D). exists b, h', w'. split; [exact E|]. split; [exact D|]. split; [congruence|].
    intro j. rewrite !enqueued_iff by auto. apply C.
  - intros i f L. destruct (incr_ok h w i f H L) as (b & h' & w' & E & (A & B & _ & C & _) & D). exists b, h', w'. split; [exact E|]. split; [exact D|]. split; [congruence|].
    intro j. rewrite !enqueued_iff by auto. apply C.
  - pose proof (pop_ok h w H) as P. destruct (g_h_heap h) as [|i r] eqn:Eh.
    + exists (Some None), h, w. split; [exact P|]. split; [congruence|]. split; [reflexivity|]. left. split; [reflexivity|]. split; [reflexivity|].
      intro j. rewrite enqueued_iff, Eh by auto. auto.
    + destruct P as (b & h' & w' & E & (A & B & C) & D). exists (if b then Some (Some i) else None), h', w'. split; [exact E|]. split; [intro Q; rewrite (D Q); congruence|].
      split; [congruence|]. right. exists i. split; [destruct b; auto|]. split; [rewrite enqueued_iff, Eh by auto; left; reflexivity|].
      intro j. rewrite !enqueued_iff by auto. rewrite C, Eh. reflexivity.
Qed.
(** The same for changes of the size.  A panic while the indices from [n] on are
    removed leaves the size as it was and a part of them removed; a panic while new
    indices are enqueued leaves the new size and a part of them enqueued. *)
Theorem panic_resize h w n init : panic_hist h w -> (N.of_nat n <= 4294967296)%N ->
  (exists b h' w', p_resize vlt vgt h w n = Ret (b, h', w') /\ (calm -> b = true) /\
     if b then len h' = n /\ forall j, enqueued h' j <-> enqueued h j /\ j < n
     else len h' = len h /\ exists k, n < k <= len h /\ forall j, enqueued h' j <-> enqueued h j /\ ~ (n <= j < k)) /\
  (exists b h' w', p_resize_enqueued vlt vgt h w n init = Ret (b, h', w') /\ (calm -> b = true) /\
     if b then len h' = n /\ forall j, enqueued h' j <-> (enqueued h j \/ len h <= j) /\ j < n
     else (len h' = len h /\ exists k, n < k <= len h /\ forall j, enqueued h' j <-> enqueued h j /\ ~ (n <= j < k)) \/
          (len h' = n /\ exists k, len h < k <= n /\ forall j, enqueued h' j <-> enqueued h j \/ len h <= j < k)).
Proof.
  intros HH Hn. pose proof (hist_HS h w HH) as H. unfold len, g_heap_len. split.
  - destruct (resize_ok h w n H Hn) as (b & h' & w' & E & A & C & X). exists b, h', w'. split; [exact E|]. split; [exact C|]. destruct b.
    + destruct X as [L M]. split; [exact L|]. intro j. rewrite !enqueued_iff by auto. apply M.
    + destruct X as (L & k & K & M). split; [exact L|]. exists k. split; [exact K|]. intro j. rewrite !enqueued_iff by auto. apply M.
  - destruct (resize_enq_ok h w n init H Hn) as (b & h' & w' & E & A & C & X). exists b, h', w'. split; [exact E|]. split; [exact C|]. destruct b.
    + destruct X as [L M]. split; [exact L|]. intro j. rewrite !enqueued_iff by auto. apply M.
    + destruct X as [(L & k & K & M)|(L & k & K & M)]; [left|right]; (split; [exact L|]; exists k; split; [exact K|]; intro j; rewrite !enqueued_iff by auto; apply M).
Qed.

(** ** Heaps with more values than positions *)
(** [h'] is [h] with [k] further values that have no positions. *)
Definition longer (k : nat) (h h' : shape) : Prop :=
  len h' = len h + k /\ g_h_pos h' = g_h_pos h /\ g_h_heap h' = g_h_heap h.
Let ext (k : nat) (h : shape) : shape := g_mkHeap (g_h_values h ++ repeat tt k) (g_h_pos h) (g_h_heap h).
Lemma all_tt (l : list unit) : l = repeat tt (length l).
Proof. induction l as [|[] l IH]; [reflexivity|]. cbn. f_equal. exact IH. Qed.
Lemma longer_ext k h h' : longer k h h' <-> h' = ext k h.
Proof.
  unfold longer, ext, len, g_heap_len. destruct h as [v p q], h' as [v' p' q']. cbn [g_h_values g_h_pos g_h_heap]. split.
  - intros (A & -> & ->). f_equal. rewrite (all_tt v'), A, repeat_app, <- all_tt. reflexivity.
  - intro E. injection E as -> -> ->. rewrite app_length, repeat_length. auto.
Qed.
Lemma ext_vget k (h : shape) i a : vget (g_h_values h) i = Ret a -> vget (g_h_values (ext k h)) i = Ret a.
Proof. intro E. apply vget_ok in E. apply vget_ok. cbn [ext g_h_values]. rewrite nth_error_app1; [exact E|]. apply nth_error_Some. congruence. Qed.
Lemma ext_index k h pos i : p_index_at h pos = Ret i -> p_index_at (ext k h) pos = Ret i.
Proof.
  unfold p_index_at. change (g_h_heap (ext k h)) with (g_h_heap h). destruct (vget (g_h_heap h) pos) as [j| |]; try discriminate. cbn [bind].
  destruct (vget (g_h_values h) j) as [u| |] eqn:E; try discriminate. rewrite (ext_vget k _ _ _ E). auto.
Qed.
Lemma ext_swap k h a b h1 : g_heap_swap h a b = Ret h1 -> g_heap_swap (ext k h) a b = Ret (ext k h1).
Proof.
  unfold g_heap_swap. change (g_h_heap (ext k h)) with (g_h_heap h). destruct (vswap (g_h_heap h) a b) as [hp| |]; try discriminate. cbn [bind].
  destruct (vget hp a) as [ia| |]; try discriminate. destruct (vget hp b) as [ib| |]; try discriminate. cbn [bind].
  change (g_h_pos (ext k h)) with (g_h_pos h). destruct (vswap (g_h_pos h) ia ib) as [ps| |]; try discriminate. cbn [bind]. intro E. injection E as <-. reflexivity.
Qed.
Lemma ext_clear k h i h1 : g_heap_clear_pos h i = Ret h1 -> g_heap_clear_pos (ext k h) i = Ret (ext k h1).
Proof. unfold g_heap_clear_pos. change (g_h_pos (ext k h)) with (g_h_pos h). destruct (vset _ _ _) as [ps| |]; try discriminate. cbn [bind]. intro E. injection E as <-. reflexivity. Qed.
Lemma ext_root k fuel : forall h w v pos b h1 w1, p_root_loop vlt fuel h w v pos = Ret (b, h1, w1) -> p_root_loop vlt fuel (ext k h) w v pos = Ret (b, ext k h1, w1).
Proof.
  induction fuel as [|f IH]; intros h w v [|q] b h1 w1 E; cbn [p_root_loop] in *; try discriminate; try (injection E as <- <- <-; reflexivity).
  destruct (p_index_at h _) as [pi| |] eqn:E1; try discriminate. rewrite (ext_index k _ _ _ E1). cbn [bind] in *.
  destruct (vlt w pi v) as [w2 [[|]|]]; try (injection E as <- <- <-; reflexivity).
  destruct (g_heap_swap h _ _) as [h2| |] eqn:E2; try discriminate. rewrite (ext_swap k _ _ _ _ E2). cbn [bind] in *. auto.
Qed.
Lemma ext_move_root k h w pos b h1 w1 : p_move_towards_root vlt h w pos = Ret (b, h1, w1) -> p_move_towards_root vlt (ext k h) w pos = Ret (b, ext k h1, w1).
Proof.
  unfold p_move_towards_root. destruct (p_index_at h pos) as [i| |] eqn:E1; try discriminate. rewrite (ext_index k _ _ _ E1). cbn [bind]. apply ext_root.
Qed.
Lemma ext_pick k h w c sp sv r : p_pick vlt h w c sp sv = Ret r -> p_pick vlt (ext k h) w c sp sv = Ret r.
Proof.
  unfold p_pick. change (g_h_heap (ext k h)) with (g_h_heap h). destruct (c <? _); [|auto].
  destruct (p_index_at h c) as [i| |] eqn:E1; try discriminate. rewrite (ext_index k _ _ _ E1). auto.
Qed.
Lemma ext_leaves k fuel : forall h w v pos b h1 w1, p_leaves_loop vlt fuel h w v pos = Ret (b, h1, w1) -> p_leaves_loop vlt fuel (ext k h) w v pos = Ret (b, ext k h1, w1).
Proof.
  induction fuel as [|f IH]; intros h w v pos b h1 w1 E; cbn [p_leaves_loop] in *; try discriminate.
  destruct (p_pick vlt h w _ pos v) as [[o1 w2]| |] eqn:E1; try discriminate. rewrite (ext_pick k _ _ _ _ _ _ E1). cbn [bind] in *.
  destruct o1 as [[sp1 sv1]|]; [|injection E as <- <- <-; reflexivity].
  destruct (p_pick vlt h w2 _ sp1 sv1) as [[o2 w3]| |] eqn:E2; try discriminate. rewrite (ext_pick k _ _ _ _ _ _ E2). cbn [bind] in *.
  destruct o2 as [[sp2 sv2]|]; [|injection E as <- <- <-; reflexivity]. destruct (sp2 =? pos); [injection E as <- <- <-; reflexivity|].
  destruct (g_heap_swap h _ _) as [h2| |] eqn:E3; try discriminate. rewrite (ext_swap k _ _ _ _ E3). cbn [bind] in *. auto.
Qed.
Lemma ext_move_leaves k h w pos b h1 w1 : p_move_towards_leaves vlt h w pos = Ret (b, h1, w1) -> p_move_towards_leaves vlt (ext k h) w pos = Ret (b, ext k h1, w1).
Proof.
  unfold p_move_towards_leaves. destruct (p_index_at h pos) as [i| |] eqn:E1; try discriminate. rewrite (ext_index k _ _ _ E1). cbn [bind]. apply ext_leaves.
Qed.
Lemma ext_enqueue k h w i b h1 w1 : p_enqueue vlt h w i = Ret (b, h1, w1) -> p_enqueue vlt (ext k h) w i = Ret (b, ext k h1, w1).
Proof.
  unfold p_enqueue. change (g_h_pos (ext k h)) with (g_h_pos h). destruct (vget (g_h_pos h) i) as [p| |]; try discriminate. cbn [bind].
  change (g_pos_in (ext k h) p) with (g_pos_in h p). destruct (g_pos_in h p); [intro E; injection E as <- <- <-; reflexivity|].
  change (g_h_heap (ext k h)) with (g_h_heap h). destruct (vset _ _ _) as [ps| |]; try discriminate. cbn [bind].
  apply (ext_move_root k (g_mkHeap (g_h_values h) ps (g_h_heap h ++ [i]))).
Qed.
Lemma ext_dequeue k h w i b h1 w1 : p_dequeue vlt vgt h w i = Ret (b, h1, w1) -> p_dequeue vlt vgt (ext k h) w i = Ret (b, ext k h1, w1).
Proof.
  unfold p_dequeue. change (g_h_pos (ext k h)) with (g_h_pos h). destruct (vget (g_h_pos h) i) as [p| |]; try discriminate. cbn [bind].
  change (g_pos_in (ext k h) p) with (g_pos_in h p). destruct (g_pos_in h p) as [pos|]; [|intro E; injection E as <- <- <-; reflexivity].
  change (g_h_heap (ext k h)) with (g_h_heap h). destruct (_ =? pos).
  - destruct (g_heap_clear_pos h i) as [h2| |] eqn:E1; try discriminate. rewrite (ext_clear k _ _ _ E1). cbn [bind]. intro E. injection E as <- <- <-. reflexivity.
  - destruct (g_heap_swap h _ _) as [h2| |] eqn:E1; try discriminate. rewrite (ext_swap k _ _ _ _ E1). cbn [bind].
    destruct (g_heap_clear_pos h2 i) as [h3| |] eqn:E2; try discriminate. rewrite (ext_clear k _ _ _ E2). cbn [bind].
    change (g_heap_pop_last (ext k h3)) with (ext k (g_heap_pop_last h3)).
    destruct (p_index_at (g_heap_pop_last h3) pos) as [mi| |] eqn:E3; try discriminate. rewrite (ext_index k _ _ _ E3). cbn [bind].
    destruct (vget (g_h_values (g_heap_pop_last h3)) i) as [u| |] eqn:E4; try discriminate. rewrite (ext_vget k _ _ _ E4). cbn [bind].
    destruct (vgt w mi i) as [w2 [[|]|]]; [apply ext_move_leaves|apply ext_move_root|intro E; injection E as <- <- <-; reflexivity].
Qed.
Lemma ext_pop k h w o h1 w1 : p_pop_max vlt h w = Ret (o, h1, w1) -> p_pop_max vlt (ext k h) w = Ret (o, ext k h1, w1).
Proof.
  unfold p_pop_max. change (g_h_heap (ext k h)) with (g_h_heap h). destruct (g_h_heap h) as [|i r] eqn:Eh; [intro E; injection E as <- <- <-; reflexivity|].
  destruct (_ =? 0).
  - destruct (g_heap_clear_pos h i) as [h2| |] eqn:E1; try discriminate. rewrite (ext_clear k _ _ _ E1). cbn [bind]. intro E. injection E as <- <- <-. reflexivity.
  - destruct (g_heap_swap h _ _) as [h2| |] eqn:E1; try discriminate. rewrite (ext_swap k _ _ _ _ E1). cbn [bind].
    destruct (g_heap_clear_pos h2 i) as [h3| |] eqn:E2; try discriminate. rewrite (ext_clear k _ _ _ E2). cbn [bind].
    change (g_heap_pop_last (ext k h3)) with (ext k (g_heap_pop_last h3)).
    destruct (p_move_towards_leaves vlt (g_heap_pop_last h3) w 0) as [[[b h4] w2]| |] eqn:E3; try discriminate. rewrite (ext_move_leaves k _ _ _ _ _ _ E3). cbn [bind].
    intro E. injection E as <- <- <-. reflexivity.
Qed.
Lemma ext_increase k h w i f b h1 w1 : p_increase vlt h w i f = Ret (b, h1, w1) -> p_increase vlt (ext k h) w i f = Ret (b, ext k h1, w1).
Proof.
  unfold p_increase. destruct (vget (g_h_values h) i) as [u| |] eqn:E1; try discriminate. rewrite (ext_vget k _ _ _ E1). cbn [bind].
  destruct (f w) as [w2 [|]]; [|intro E; injection E as <- <- <-; reflexivity]. change (g_h_pos (ext k h)) with (g_h_pos h).
  destruct (vget (g_h_pos h) i) as [p| |]; try discriminate. cbn [bind]. change (g_pos_in (ext k h) p) with (g_pos_in h p).
  destruct (g_pos_in h p) as [pos|]; [apply ext_move_root|intro E; injection E as <- <- <-; reflexivity].
Qed.

Lemma ext_resize k h w m : len h + k <= m -> p_resize vlt vgt (ext k h) w m = p_resize vlt vgt h w m.
Proof.
  unfold len, g_heap_len. intro Hm. unfold p_resize, ext. destruct (N.of_nat m <=? 4294967296)%N; [|reflexivity].
  cbn [g_h_values]. rewrite app_length, repeat_length. destruct (Nat.ltb_spec m (length (g_h_values h) + k)); [lia|]. destruct (Nat.ltb_spec m (length (g_h_values h))); [lia|].
  cbn [bind g_h_values g_h_pos g_h_heap]. f_equal. f_equal. f_equal. f_equal. unfold vresize. rewrite app_length, repeat_length, !firstn_all2 by (rewrite ?app_length, ?repeat_length; lia).
  rewrite <- app_assoc, <- repeat_app. f_equal. f_equal. lia.
Qed.
Lemma ext_shrink k ks : forall h w h2 w2, panic_hist h w -> (exists x, In x ks /\ len h <= x) -> p_all (p_dequeue vlt vgt) ks (ext k h) w <> Ret (true, h2, w2).
Proof.
  induction ks as [|a ks IH]; intros h w h2 w2 H (x & Hx & Lx) E; [destruct Hx|]. cbn [p_all] in E. destruct (Nat.ltb_spec a (len h)) as [La|La].
  - destruct (panic_safe h w H) as (_ & _ & _ & B & _). destruct (B a La) as (b & h1 & w1 & E1 & _ & Q & _). rewrite (ext_dequeue k _ _ _ _ _ _ E1) in E. cbn [bind] in E.
    destruct b; [|discriminate]. eapply (IH h1); [eapply ph_dequeue; eauto| |exact E]. exists x. destruct Hx as [->|Hx]; [lia|]. split; [exact Hx|lia].
  - assert (Q : p_dequeue vlt vgt (ext k h) w a = Panic PBounds).
    { unfold p_dequeue, ext. cbn [g_h_pos]. unfold vget. rewrite (proj2 (nth_error_None _ _)); [reflexivity|]. rewrite (g_hs_len h (hist_HS h w H)). exact La. }
    rewrite Q in E. discriminate.
Qed.

(** ** C104 *)
(** A panic of [clone] in [resize] leaves the enqueued indices as they are.  The old
    indices can be used like before, and a further [resize] that does not make the heap
    smaller does the same as without the panic. *)
Theorem clone_panic_partial h w n k b h' w' : panic_hist h w -> p_resize_clone vlt vgt h w n k = Ret (b, h', w') -> len h + k + 1 < n ->
  b = false /\ longer k h h' /\
  (forall i, i < len h -> g_is_enqueued h' i = g_is_enqueued h i) /\
  (forall i, len h <= i -> g_is_enqueued h' i = Panic PBounds) /\
  (forall m w2, len h' <= m -> p_resize vlt vgt h' w2 m = p_resize vlt vgt h w2 m).
Proof.
  intros HH E L. pose proof (hist_HS h w HH) as H. unfold len, g_heap_len in *. unfold p_resize_clone in E. destruct (N.of_nat n <=? 4294967296)%N; try discriminate.
  destruct (Nat.ltb_spec (k + 1) (n - length (g_h_values h))) as [G|G]; [|lia]. injection E as <- <- <-. cbn [g_h_values g_h_heap g_h_pos].
  split; [reflexivity|]. split; [apply longer_ext; reflexivity|]. split; [reflexivity|]. split.
  - intros i Hi. unfold g_is_enqueued, vget. cbn [g_h_pos]. rewrite (proj2 (nth_error_None _ _)); [reflexivity|]. rewrite (g_hs_len h H). exact Hi.
  - intros m w2 Hm. rewrite app_length, repeat_length in Hm. exact (ext_resize k h w2 m Hm).
Qed.

(** On such a heap every call for an old index, and [pop_max], does what it does on the
    heap from before; afterwards the two heaps still differ in the same way.  To make
    it large enough repairs the heap, to make it smaller never succeeds. *)
Theorem clone_panic_calls_partial k h h' w : longer k h h' -> panic_hist h w ->
  (forall i, i < len h -> exists b h1 h1' w1,
     p_enqueue vlt h w i = Ret (b, h1, w1) /\ p_enqueue vlt h' w i = Ret (b, h1', w1) /\ longer k h1 h1') /\
  (forall i, i < len h -> exists b h1 h1' w1,
     p_dequeue vlt vgt h w i = Ret (b, h1, w1) /\ p_dequeue vlt vgt h' w i = Ret (b, h1', w1) /\ longer k h1 h1') /\
  (forall i f, i < len h -> exists b h1 h1' w1,
     p_increase vlt h w i f = Ret (b, h1, w1) /\ p_increase vlt h' w i f = Ret (b, h1', w1) /\ longer k h1 h1') /\
  (exists o h1 h1' w1,
     p_pop_max vlt h w = Ret (o, h1, w1) /\ p_pop_max vlt h' w = Ret (o, h1', w1) /\ longer k h1 h1') /\
  (forall n, len h' <= n -> p_resize vlt vgt h' w n = p_resize vlt vgt h w n) /\
  (forall n h2 w2, n < len h' -> 0 < k -> p_resize vlt vgt h' w n <> Ret (true, h2, w2)).
Proof.
  intros L H. apply longer_ext in L. subst h'. destruct (panic_safe h w H) as (_ & _ & A & B & C & D). split; [|split; [|split; [|split; [|split]]]].
  - intros i Hi. destruct (A i Hi) as (b & h1 & w1 & E & _). exists b, h1, (ext k h1), w1. split; [exact E|]. split; [exact (ext_enqueue k _ _ _ _ _ _ E)|]. apply longer_ext. reflexivity.
  - intros i Hi. destruct (B i Hi) as (b & h1 & w1 & E & _). exists b, h1, (ext k h1), w1. split; [exact E|]. split; [exact (ext_dequeue k _ _ _ _ _ _ E)|]. apply longer_ext. reflexivity.
  - intros i f Hi. destruct (C i f Hi) as (b & h1 & w1 & E & _). exists b, h1, (ext k h1), w1. split; [exact E|]. split; [exact (ext_increase k _ _ _ _ _ _ _ E)|]. apply longer_ext. reflexivity.
  - destruct D as (o & h1 & w1 & E & _). exists o, h1, (ext k h1), w1. split; [exact E|]. split; [exact (ext_pop k _ _ _ _ _ E)|]. apply longer_ext. reflexivity.
  - assert (Q : longer k h (ext k h)) by (apply longer_ext; reflexivity). destruct Q as [Q _]. rewrite Q. intro n. apply ext_resize.
  - assert (Q : longer k h (ext k h)) by (apply longer_ext; reflexivity). destruct Q as [Q _]. intros n h2 w2 Hn K E. unfold p_resize in E.
    destruct (N.of_nat n <=? 4294967296)%N; try discriminate. unfold len, g_heap_len in Q, Hn. destruct (Nat.ltb_spec n (length (g_h_values (ext k h)))); [|lia].
    destruct (p_all _ _ _ _) as [[[[|] h3] w3]| |] eqn:E1; try discriminate. revert E1. apply ext_shrink; [exact H|].
    exists (length (g_h_values (ext k h)) - 1). unfold len, g_heap_len. split; [apply in_seq; lia|lia].
Qed.
End World.

(** ** Comparisons that do not panic *)
(** With comparisons of the values in a vector, the calls do what those of C101 do. *)
Section Pure.
Context {V : Type} (vlt vgt : V -> V -> bool).
Definition by_value (cmp : V -> V -> bool) (w : list V) (i j : nat) : list V * option bool :=
  (w, match nth_error w i, nth_error w j with Some a, Some b => Some (cmp a b) | _, _ => None end).
Definition shape_of (h : @g_heap V) : shape := g_mkHeap (map (fun _ => tt) (g_h_values h)) (g_h_pos h) (g_h_heap h).

Lemma vget_map {A B} (f : A -> B) l i : vget (map f l) i = (let* x := vget l i in Ret (f x)).
Proof. unfold vget. rewrite nth_error_map. destruct (nth_error l i); reflexivity. Qed.
Lemma shape_swap h a b : g_heap_swap (shape_of h) a b = (let* h' := g_heap_swap h a b in Ret (shape_of h')).
Proof.
  unfold g_heap_swap, shape_of. cbn [g_h_heap g_h_pos g_h_values]. destruct (vswap (g_h_heap h) a b) as [hp| |]; cbn [bind]; auto.
  destruct (vget hp a); cbn [bind]; auto. destruct (vget hp b); cbn [bind]; auto. destruct (vswap (g_h_pos h) _ _); reflexivity.
Qed.
Lemma swap_values (h h' : @g_heap V) a b : g_heap_swap h a b = Ret h' -> g_h_values h' = g_h_values h.
Proof.
  unfold g_heap_swap. destruct (vswap (g_h_heap h) a b) as [hp| |]; cbn [bind]; try discriminate. destruct (vget hp a); cbn [bind]; try discriminate.
  destruct (vget hp b); cbn [bind]; try discriminate. destruct (vswap (g_h_pos h) _ _); cbn [bind]; try discriminate. intro E. injection E as <-. reflexivity.
Qed.
Lemma shape_index h p v : g_value_at h p = Ret v -> exists i, p_index_at (shape_of h) p = Ret i /\ nth_error (g_h_values h) i = Some v.
Proof.
  unfold g_value_at, p_index_at, shape_of. cbn [g_h_heap g_h_values]. destruct (vget (g_h_heap h) p) as [i| |]; cbn [bind]; try discriminate.
  intro E. rewrite vget_map, E. cbn [bind]. exists i. split; [reflexivity|]. apply vget_ok. exact E.
Qed.
Lemma pure_root fuel : forall h vi v pos h', nth_error (g_h_values h) vi = Some v -> g_root_loop vlt fuel h v pos = Ret h' ->
  p_root_loop (by_value vlt) fuel (shape_of h) (g_h_values h) vi pos = Ret (true, shape_of h', g_h_values h').
Proof.
  induction fuel as [|f IH]; intros h vi v [|q] h' Hv E; cbn [g_root_loop p_root_loop] in *; try discriminate; try (injection E as <-; reflexivity).
  destruct (g_value_at h ((S q - 1) / 2)) as [pv| |] eqn:E1; try discriminate. cbn [bind] in E. destruct (shape_index _ _ _ E1) as (pi & -> & Hp). cbn [bind].
  unfold by_value at 1. rewrite Hp, Hv. destruct (vlt pv v); [|injection E as <-; reflexivity].
  rewrite shape_swap. destruct (g_heap_swap h _ _) as [h1| |] eqn:E2; try discriminate. cbn [bind] in *. rewrite <- (swap_values _ _ _ _ E2) in *. eapply IH; eauto.
Qed.
Lemma pure_move_root h pos h' : g_move_towards_root vlt h pos = Ret h' ->
  p_move_towards_root (by_value vlt) (shape_of h) (g_h_values h) pos = Ret (true, shape_of h', g_h_values h').
Proof.
  unfold g_move_towards_root, p_move_towards_root. destruct (g_value_at h pos) as [v| |] eqn:E1; try discriminate. cbn [bind]. intro E.
  destruct (shape_index _ _ _ E1) as (i & -> & Hi). cbn [bind]. eapply pure_root; eauto.
Qed.
Lemma pure_leaves fuel : forall h vi v pos h', nth_error (g_h_values h) vi = Some v -> g_leaves_loop vlt fuel h v pos = Ret h' ->
  p_leaves_loop (by_value vlt) fuel (shape_of h) (g_h_values h) vi pos = Ret (true, shape_of h', g_h_values h').
Proof.
  induction fuel as [|f IH]; intros h vi v pos h' Hv E; cbn [g_leaves_loop p_leaves_loop] in *; try discriminate.
  assert (P : forall child sp si sv, nth_error (g_h_values h) si = Some sv -> forall r,
    (if child <? length (g_h_heap h) then let* lv := g_value_at h child in if vlt sv lv then Ret (child, lv) else Ret (sp, sv) else Ret (sp, sv)) = Ret r ->
    exists i, p_pick (by_value vlt) (shape_of h) (g_h_values h) child sp si = Ret (Some (fst r, i), g_h_values h) /\ nth_error (g_h_values h) i = Some (snd r)).
  { intros child sp si sv Hs r Q. unfold p_pick. change (g_h_heap (shape_of h)) with (g_h_heap h). destruct (child <? length (g_h_heap h)).
    - destruct (g_value_at h child) as [lv| |] eqn:E1; try discriminate. cbn [bind] in Q. destruct (shape_index _ _ _ E1) as (ci & -> & Hc). cbn [bind].
      unfold by_value. rewrite Hs, Hc. destruct (vlt sv lv); injection Q as <-; eauto.
    - injection Q as <-. eauto. }
  destruct (if pos * 2 + 1 <? _ then _ else _) as [[sp1 sv1]| |] eqn:E1; try discriminate. cbn [bind] in E.
  destruct (P _ _ _ _ Hv _ E1) as (i1 & -> & H1). cbn [bind fst snd] in *.
  destruct (if pos * 2 + 2 <? _ then _ else _) as [sp2| |] eqn:E2; try discriminate. cbn [bind] in E.
  assert (E3 : exists sv2, (if pos * 2 + 2 <? length (g_h_heap h) then let* lv := g_value_at h (pos * 2 + 2) in if vlt sv1 lv then Ret (pos * 2 + 2, lv) else Ret (sp1, sv1) else Ret (sp1, sv1)) = Ret (sp2, sv2)).
  { destruct (pos * 2 + 2 <? length (g_h_heap h)); [|assert (sp1 = sp2) by congruence; subst; eauto].
    destruct (g_value_at h (pos * 2 + 2)) as [rv| |]; try discriminate. cbn [bind] in E2 |- *. destruct (vlt sv1 rv).
    - assert (pos * 2 + 2 = sp2) by congruence. subst. eauto.
    - assert (sp1 = sp2) by congruence. subst. eauto. }
  destruct E3 as [sv2 E3]. destruct (P _ _ _ _ H1 _ E3) as (i2 & -> & H2). cbn [bind fst snd] in *.
  destruct (sp2 =? pos); [injection E as <-; reflexivity|].
  rewrite shape_swap. destruct (g_heap_swap h _ _) as [h1| |] eqn:E4; try discriminate. cbn [bind] in *. rewrite <- (swap_values _ _ _ _ E4) in *. eapply IH; eauto.
Qed.
Lemma pure_move_leaves h pos h' : g_move_towards_leaves vlt h pos = Ret h' ->
  p_move_towards_leaves (by_value vlt) (shape_of h) (g_h_values h) pos = Ret (true, shape_of h', g_h_values h').
Proof.
  unfold g_move_towards_leaves, p_move_towards_leaves. destruct (g_value_at h pos) as [v| |] eqn:E1; try discriminate. cbn [bind]. intro E.
  destruct (shape_index _ _ _ E1) as (i & -> & Hi). cbn [bind]. eapply pure_leaves; eauto.
Qed.
Lemma shape_clear h i : g_heap_clear_pos (shape_of h) i = (let* h' := g_heap_clear_pos h i in Ret (shape_of h')).
Proof. unfold g_heap_clear_pos, shape_of. cbn [g_h_pos g_h_values g_h_heap]. destruct (vset _ _ _); reflexivity. Qed.
Lemma clear_values (h h' : @g_heap V) i : g_heap_clear_pos h i = Ret h' -> g_h_values h' = g_h_values h.
Proof. unfold g_heap_clear_pos. destruct (vset _ _ _); try discriminate. intro E. injection E as <-. reflexivity. Qed.
Lemma pure_dequeue h i h' : g_dequeue vlt vgt h i = Ret h' ->
  p_dequeue (by_value vlt) (by_value vgt) (shape_of h) (g_h_values h) i = Ret (true, shape_of h', g_h_values h').
Proof.
  unfold g_dequeue, p_dequeue. change (g_h_pos (shape_of h)) with (g_h_pos h). destruct (vget (g_h_pos h) i) as [p| |]; try discriminate. cbn [bind].
  change (g_pos_in (shape_of h) p) with (g_pos_in h p). destruct (g_pos_in h p) as [pos|]; [|intro E; injection E as <-; reflexivity].
  change (g_h_heap (shape_of h)) with (g_h_heap h). destruct (_ =? pos).
  - rewrite shape_clear. destruct (g_heap_clear_pos h i) as [h1| |] eqn:E1; try discriminate. cbn [bind]. intro E. injection E as <-.
    rewrite <- (clear_values _ _ _ E1). reflexivity.
  - rewrite shape_swap. destruct (g_heap_swap h _ _) as [h1| |] eqn:E1; try discriminate. cbn [bind]. rewrite shape_clear.
    destruct (g_heap_clear_pos h1 i) as [h2| |] eqn:E2; try discriminate. cbn [bind]. rewrite <- (swap_values _ _ _ _ E1), <- (clear_values _ _ _ E2).
    change (g_heap_pop_last (shape_of h2)) with (shape_of (g_heap_pop_last h2)). change (g_h_values h2) with (g_h_values (g_heap_pop_last h2)). set (h3 := g_heap_pop_last h2).
    destruct (g_value_at h3 pos) as [mv| |] eqn:E3; try discriminate. cbn [bind]. destruct (shape_index _ _ _ E3) as (mi & -> & Hm). cbn [bind].
    destruct (vget (g_h_values h3) i) as [rv| |] eqn:E4; try discriminate. cbn [bind]. change (g_h_values (shape_of h3)) with (map (fun _ : V => tt) (g_h_values h3)).
    rewrite vget_map, E4. cbn [bind]. apply vget_ok in E4. assert (Q : by_value vgt (g_h_values h3) mi i = (g_h_values h3, Some (vgt mv rv))) by (unfold by_value; rewrite Hm, E4; reflexivity). rewrite Q. destruct (vgt mv rv); [apply pure_move_leaves|apply pure_move_root].
Qed.
Lemma pure_enqueue h i h' : g_enqueue vlt h i = Ret h' ->
  p_enqueue (by_value vlt) (shape_of h) (g_h_values h) i = Ret (true, shape_of h', g_h_values h').
Proof.
  unfold g_enqueue, p_enqueue. change (g_h_pos (shape_of h)) with (g_h_pos h). destruct (vget (g_h_pos h) i) as [p| |]; try discriminate. cbn [bind].
  change (g_pos_in (shape_of h) p) with (g_pos_in h p). destruct (g_pos_in h p) as [pos|]; [intro E; injection E as <-; reflexivity|].
  change (g_h_heap (shape_of h)) with (g_h_heap h). destruct (vset _ _ _) as [ps| |]; try discriminate. cbn [bind].
  apply (pure_move_root (g_mkHeap (g_h_values h) ps (g_h_heap h ++ [i]))).
Qed.
Lemma pure_pop h o h' : g_pop_max vlt h = Ret (o, h') ->
  p_pop_max (by_value vlt) (shape_of h) (g_h_values h) = Ret (Some o, shape_of h', g_h_values h').
Proof.
  unfold g_pop_max, p_pop_max. change (g_h_heap (shape_of h)) with (g_h_heap h). destruct (g_h_heap h) as [|i r] eqn:Eh; [intro E; injection E as <- <-; reflexivity|]. rewrite <- Eh. clear Eh.
  destruct (_ =? 0).
  - rewrite shape_clear. destruct (g_heap_clear_pos h i) as [h1| |] eqn:E1; try discriminate. cbn [bind]. intro E. injection E as <- <-.
    rewrite <- (clear_values _ _ _ E1). reflexivity.
  - rewrite shape_swap. destruct (g_heap_swap h _ _) as [h1| |] eqn:E1; try discriminate. cbn [bind]. rewrite shape_clear.
    destruct (g_heap_clear_pos h1 i) as [h2| |] eqn:E2; try discriminate. cbn [bind]. rewrite <- (swap_values _ _ _ _ E1), <- (clear_values _ _ _ E2).
    change (g_heap_pop_last (shape_of h2)) with (shape_of (g_heap_pop_last h2)). change (g_h_values h2) with (g_h_values (g_heap_pop_last h2)).
    destruct (g_move_towards_leaves vlt (g_heap_pop_last h2) 0) as [h3| |] eqn:E3; try discriminate. cbn [bind]. intro E. injection E as <- <-.
    rewrite (pure_move_leaves _ _ _ E3). reflexivity.
Qed.
Lemma pure_all op gop ks : (forall h i h', gop h i = Ret h' -> op (shape_of h) (g_h_values h) i = Ret (true, shape_of h', g_h_values h')) ->
  forall h h', foldM gop ks h = Ret h' -> p_all op ks (shape_of h) (g_h_values h) = Ret (true, shape_of h', g_h_values h').
Proof.
  intro Q. induction ks as [|k ks IH]; intros h h' E; cbn [foldM p_all] in *; [injection E as <-; reflexivity|].
  destruct (gop h k) as [h1| |] eqn:E1; try discriminate. cbn [bind] in E. rewrite (Q _ _ _ E1). cbn [bind]. auto.
Qed.
Lemma map_tt_resize (vs : list V) n v : map (fun _ => tt) (vresize vs n v) = vresize (map (fun _ => tt) vs) n tt.
Proof.
  unfold vresize. rewrite map_app, firstn_map, map_length. f_equal. induction (n - length vs) as [|k IH]; [reflexivity|]. cbn. f_equal. exact IH.
Qed.
Lemma root_values fuel : forall (h h' : @g_heap V) v pos, g_root_loop vlt fuel h v pos = Ret h' -> g_h_values h' = g_h_values h.
Proof.
  induction fuel as [|f IH]; intros h h' v [|q] E; cbn [g_root_loop] in E; try discriminate; try (injection E as <-; reflexivity).
  destruct (g_value_at _ _) as [pv| |]; try discriminate. cbn [bind] in E. destruct (vlt pv v); [|injection E as <-; reflexivity].
  destruct (g_heap_swap h _ _) as [h1| |] eqn:E2; try discriminate. cbn [bind] in E. rewrite <- (swap_values _ _ _ _ E2). eauto.
Qed.
Lemma leaves_values fuel : forall (h h' : @g_heap V) v pos, g_leaves_loop vlt fuel h v pos = Ret h' -> g_h_values h' = g_h_values h.
Proof.
  induction fuel as [|f IH]; intros h h' v pos E; cbn [g_leaves_loop] in E; try discriminate.
  destruct (if pos * 2 + 1 <? _ then _ else _) as [[sp1 sv1]| |]; try discriminate. cbn [bind] in E.
  destruct (if pos * 2 + 2 <? _ then _ else _) as [sp2| |]; try discriminate. cbn [bind] in E. destruct (sp2 =? pos); [injection E as <-; reflexivity|].
  destruct (g_heap_swap h _ _) as [h1| |] eqn:E2; try discriminate. cbn [bind] in E. rewrite <- (swap_values _ _ _ _ E2). eauto.
Qed.
Lemma dequeue_values (h h' : @g_heap V) i : g_dequeue vlt vgt h i = Ret h' -> g_h_values h' = g_h_values h.
Proof.
  unfold g_dequeue. destruct (vget (g_h_pos h) i) as [p| |]; try discriminate. cbn [bind]. destruct (g_pos_in h p) as [pos|]; [|intro E; injection E as <-; reflexivity].
  destruct (_ =? pos).
  - destruct (g_heap_clear_pos h i) as [h1| |] eqn:E1; try discriminate. cbn [bind]. intro E. injection E as <-. exact (clear_values _ _ _ E1).
  - destruct (g_heap_swap h _ _) as [h1| |] eqn:E1; try discriminate. cbn [bind]. destruct (g_heap_clear_pos h1 i) as [h2| |] eqn:E2; try discriminate. cbn [bind].
    rewrite <- (swap_values _ _ _ _ E1), <- (clear_values _ _ _ E2). change (g_h_values h2) with (g_h_values (g_heap_pop_last h2)).
    unfold g_move_towards_leaves, g_move_towards_root.
    destruct (g_value_at (g_heap_pop_last h2) pos) as [mv| |]; try discriminate. cbn [bind].
    destruct (vget _ i) as [rv| |]; try discriminate. cbn [bind]. destruct (vgt mv rv); [apply leaves_values|apply root_values].
Qed.
Lemma dequeues_values ks : forall (h h' : @g_heap V), foldM (g_dequeue vlt vgt) ks h = Ret h' -> g_h_values h' = g_h_values h.
Proof.
  induction ks as [|k ks IH]; intros h h' E; cbn [foldM] in E; [injection E as <-; reflexivity|]. destruct (g_dequeue _ _ h k) as [h1| |] eqn:E1; try discriminate.
  cbn [bind] in E. rewrite (IH _ _ E). exact (dequeue_values _ _ _ E1).
Qed.
Lemma pure_resize h n v h' : g_heap_resize vlt vgt h n v = Ret h' ->
  p_resize (by_value vlt) (by_value vgt) (shape_of h) (g_h_values h) n = Ret (true, shape_of h', g_h_values h) /\ g_h_values h' = vresize (g_h_values h) n v.
Proof.
  unfold g_heap_resize, p_resize. destruct (N.of_nat n <=? 4294967296)%N; try discriminate. change (g_h_values (shape_of h)) with (map (fun _ : V => tt) (g_h_values h)).
  rewrite map_length. destruct (n <? length (g_h_values h)).
  - destruct (foldM _ _ h) as [h1| |] eqn:E1; try discriminate. cbn [bind]. intro E. injection E as <-.
    rewrite (pure_all _ _ _ pure_dequeue _ _ E1). cbn [bind]. unfold shape_of. cbn [g_h_values g_h_pos g_h_heap]. rewrite (dequeues_values _ _ _ E1), map_tt_resize. auto.
  - cbn [bind]. intro E. injection E as <-. unfold shape_of. cbn [g_h_values g_h_pos g_h_heap]. rewrite map_tt_resize. auto.
Qed.

Theorem pure_instance (h h' : @g_heap V) :
  (forall i, g_is_enqueued (shape_of h) i = g_is_enqueued h i) /\
  (forall i, g_enqueue vlt h i = Ret h' -> p_enqueue (by_value vlt) (shape_of h) (g_h_values h) i = Ret (true, shape_of h', g_h_values h')) /\
  (forall i, g_dequeue vlt vgt h i = Ret h' -> p_dequeue (by_value vlt) (by_value vgt) (shape_of h) (g_h_values h) i = Ret (true, shape_of h', g_h_values h')) /\
  (forall o, g_pop_max vlt h = Ret (o, h') -> p_pop_max (by_value vlt) (shape_of h) (g_h_values h) = Ret (Some o, shape_of h', g_h_values h')) /\
  (forall i f g, (forall v, nth_error (g_h_values h) i = Some v -> g (g_h_values h) = (upd (g_h_values h) i (f v), true)) -> g_increase vlt h i f = Ret h' ->
     p_increase (by_value vlt) (shape_of h) (g_h_values h) i g = Ret (true, shape_of h', g_h_values h')) /\
  (forall n v, g_heap_resize vlt vgt h n v = Ret h' ->
     p_resize (by_value vlt) (by_value vgt) (shape_of h) (g_h_values h) n = Ret (true, shape_of h', g_h_values h) /\ g_h_values h' = vresize (g_h_values h) n v) /\
  (forall n v, g_heap_resize_enqueued vlt vgt h n v = Ret h' ->
     p_resize_enqueued (by_value vlt) (by_value vgt) (shape_of h) (g_h_values h) n (fun w => vresize w n v) = Ret (true, shape_of h', g_h_values h')).
Proof.
  split; [reflexivity|]. split; [intro; apply pure_enqueue|]. split; [intro; apply pure_dequeue|]. split; [intro; apply pure_pop|]. split; [|split; [intros n v; apply pure_resize|]].
  - intros i f g Hg. unfold g_increase, p_increase. change (g_h_values (shape_of h)) with (map (fun _ : V => tt) (g_h_values h)). rewrite vget_map.
    destruct (vget (g_h_values h) i) as [v| |] eqn:E1; try discriminate. cbn [bind]. apply vget_ok in E1. rewrite (Hg v E1).
    assert (L : i < length (g_h_values h)) by (apply nth_error_Some; congruence). rewrite vset_lt by exact L. cbn [bind g_h_pos].
    change (g_h_pos (shape_of h)) with (g_h_pos h). destruct (vget (g_h_pos h) i) as [p| |]; try discriminate. cbn [bind].
    set (h1 := g_mkHeap (upd (g_h_values h) i (f v)) (g_h_pos h) (g_h_heap h)).
    assert (S1 : shape_of h = shape_of h1).
    { unfold shape_of, h1. cbn [g_h_values g_h_pos g_h_heap]. f_equal. apply nth_ext with tt tt; [rewrite !map_length, upd_length; reflexivity|].
      intros k _. destruct (nth k (map (fun _ => tt) (g_h_values h)) tt), (nth k (map (fun _ => tt) (upd (g_h_values h) i (f v))) tt). reflexivity. }
    rewrite S1. change (g_pos_in (shape_of h1) p) with (g_pos_in h1 p). change (upd (g_h_values h) i (f v)) with (g_h_values h1).
    destruct (g_pos_in h1 p) as [pos|]; [apply pure_move_root|]. intro E. injection E as <-. reflexivity.
  - intros n v. unfold g_heap_resize_enqueued, p_resize_enqueued. destruct (g_heap_resize vlt vgt h n v) as [h1| |] eqn:E1; try discriminate. cbn [bind]. intro E.
    destruct (pure_resize _ _ _ _ E1) as [-> Q]. cbn [bind]. rewrite <- Q. unfold g_heap_len in *. change (g_h_values (shape_of h)) with (map (fun _ : V => tt) (g_h_values h)). rewrite map_length.
    exact (pure_all _ _ _ pure_enqueue _ _ E).
Qed.
(** Code for [f(value)] of [apply_monotone]: [f] changes the value or panics. *)
Definition on_value (f : V -> option V) (w : list V) (i : nat) : list V * bool :=
  match nth_error w i with
  | Some v => match f v with Some v' => (upd w i v', true) | None => (w, false) end
  | None => (w, false)
  end.
Lemma apply_loop_ok (f : V -> option V) n : forall a w, a + n = length w ->
  match p_apply_loop (on_value f) (seq a n) w with
  | (b, w') => length w' = length w /\ exists k, a <= k <= a + n /\ (b = true -> k = a + n) /\
      (b = false -> exists v, nth_error w k = Some v /\ f v = None) /\
      forall i, if (a <=? i) && (i <? k) then exists v v', nth_error w i = Some v /\ f v = Some v' /\ nth_error w' i = Some v'
                else nth_error w' i = nth_error w i
  end.
Proof.
  induction n as [|n IH]; intros a w L; cbn [seq p_apply_loop].
  - split; [reflexivity|]. exists a. split; [lia|]. split; [lia|]. split; [discriminate|]. intro i.
    destruct (Nat.leb_spec a i), (Nat.ltb_spec i a); cbn [andb]; try reflexivity; lia.
  - unfold on_value at 1. destruct (nth_error w a) as [v|] eqn:Ev; [|apply nth_error_None in Ev; lia].
    destruct (f v) as [v'|] eqn:Ef.
    + specialize (IH (S a) (upd w a v')). rewrite upd_length in IH. specialize (IH ltac:(lia)).
      destruct (p_apply_loop (on_value f) (seq (S a) n) (upd w a v')) as [b w']. destruct IH as (A & k & K & B & C & D).
      split; [exact A|]. exists k. split; [lia|]. split; [intro Q; rewrite (B Q); lia|]. split.
      * intro Q. destruct (C Q) as (u & U1 & U2). rewrite upd_other in U1 by lia. eauto.
      * intro i. specialize (D i). destruct (Nat.eq_dec i a) as [->|N].
        -- destruct (Nat.leb_spec (S a) a); [lia|]. cbn [andb] in D. rewrite upd_same in D by lia.
           destruct (Nat.leb_spec a a); [|lia]. destruct (Nat.ltb_spec a k); [|lia]. cbn [andb]. eauto.
        -- replace (a <=? i) with (S a <=? i) by (destruct (Nat.leb_spec (S a) i), (Nat.leb_spec a i); lia).
           rewrite upd_other in D by auto. exact D.
    + split; [reflexivity|]. exists a. split; [lia|]. split; [discriminate|]. split; [eauto|]. intro i.
      destruct (Nat.leb_spec a i), (Nat.ltb_spec i a); cbn [andb]; try reflexivity; lia.
Qed.

(** [apply_monotone] calls the function for the values in the order of the indices.  If
    a call panics, the values before have been changed and the others have not; what
    is enqueued and where never changes. *)
Theorem apply_panic (h : @g_heap V) (f : V -> option V) b h' w' :
  p_apply_monotone (shape_of h) (g_h_values h) (on_value f) = (b, h', w') ->
  h' = shape_of h /\ length w' = length (g_h_values h) /\
  exists k, k <= length w' /\ (b = true -> k = length w') /\
    (b = false -> exists v, nth_error (g_h_values h) k = Some v /\ f v = None) /\
    (forall i, i < k -> exists v v', nth_error (g_h_values h) i = Some v /\ f v = Some v' /\ nth_error w' i = Some v') /\
    (forall i, k <= i -> nth_error w' i = nth_error (g_h_values h) i).
Proof.
  unfold p_apply_monotone. change (length (g_h_values (shape_of h))) with (length (map (fun _ : V => tt) (g_h_values h))). rewrite map_length.
  pose proof (apply_loop_ok f (length (g_h_values h)) 0 (g_h_values h) eq_refl) as P.
  destruct (p_apply_loop _ _ _) as [b1 w1]. intro E. injection E as <- <- <-. destruct P as (A & k & K & B & C & D).
  split; [reflexivity|]. split; [exact A|]. exists k. split; [lia|]. split; [intro Q; rewrite (B Q), A; reflexivity|]. split; [exact C|].
  split; intros i Hi; specialize (D i); cbn [Nat.leb andb] in D.
  - destruct (Nat.ltb_spec i k); [exact D|lia].
  - destruct (Nat.ltb_spec i k); [lia|exact D].
Qed.

Lemma nth_error_eq {A} (l1 : list A) : forall l2, (forall i, nth_error l1 i = nth_error l2 i) -> l1 = l2.
Proof.
  induction l1 as [|a l1 IH]; intros [|b l2] H; [reflexivity|discriminate (H 0)|discriminate (H 0)|].
  assert (Q := H 0). cbn in Q. f_equal; [congruence|]. apply IH. intro i. exact (H (S i)).
Qed.
(** A function that does not panic gives what C101 says about [apply_monotone]. *)
Theorem apply_pure (h : @g_heap V) (f : V -> V) :
  p_apply_monotone (shape_of h) (g_h_values h) (on_value (fun v => Some (f v))) =
    (true, shape_of (g_apply_monotone h f), g_h_values (g_apply_monotone h f)).
Proof.
  destruct (p_apply_monotone (shape_of h) (g_h_values h) (on_value (fun v => Some (f v)))) as [[b h'] w'] eqn:E.
  destruct (apply_panic _ _ _ _ _ E) as (-> & L & k & K & B & C & D & _). unfold g_apply_monotone. cbn [g_h_values].
  destruct b; [|destruct (C eq_refl) as (v & _ & Q); discriminate Q]. specialize (B eq_refl). f_equal; [f_equal|].
  - unfold shape_of. cbn [g_h_values g_h_pos g_h_heap]. rewrite map_map. reflexivity.
  - apply nth_error_eq. intro i. rewrite nth_error_map. destruct (Nat.lt_ge_cases i k) as [Hi|Hi].
    + destruct (D i Hi) as (v & v' & E1 & E2 & E3). injection E2 as <-. rewrite E1, E3. reflexivity.
    + rewrite (proj2 (nth_error_None w' i)) by lia. rewrite (proj2 (nth_error_None (g_h_values h) i)) by lia. reflexivity.
Qed.
End Pure.

(** ** Examples *)
(** The world counts comparisons, and the fifth one panics. *)
Definition fifth (w : nat) (i j : nat) : nat * option bool := (S w, if w =? 4 then None else Some (i <? j)).
(** Four indices are enqueued; a comparison panics when [pop_max] is called, and
    index 3 is no longer enqueued although nobody received it. *)
Example panic_safe_example : exists h h', panic_hist fifth fifth h 4 /\ enqueued h 3 /\
  p_pop_max fifth h 4 = Ret (None, h', 5) /\ ~ enqueued h' 3 /\ enqueued h' 0 /\ enqueued h' 1 /\ enqueued h' 2 /\ panic_hist fifth fifth h' 5.
Proof.
  destruct (p_resize_enqueued fifth fifth g_heap_empty 0 4 (fun w => w)) as [[[b h] w]| |] eqn:E; [|discriminate|discriminate].
  assert (H : panic_hist fifth fifth h 4).
  { apply (ph_world _ _ h w). eapply ph_resize_enqueued; [apply (ph_new _ _ 0)| |exact E]. intro Q. discriminate Q. }
  vm_compute in E. injection E as <- <- <-. eexists _, _. split; [exact H|]. split; [reflexivity|]. split; [vm_compute; reflexivity|].
  split; [intro Q; discriminate Q|]. split; [reflexivity|]. split; [reflexivity|]. split; [reflexivity|].
  eapply ph_pop; [exact H|]. vm_compute. reflexivity.
Qed.
(** The panic of a comparison in the middle of [resize_enqueued] *)
Example panic_resize_example : exists h', p_resize_enqueued fifth fifth g_heap_empty 2 6 (fun w => w) = Ret (false, h', 5) /\
  len h' = 6 /\ enqueued h' 2 /\ ~ enqueued h' 4.
Proof. eexists. split; [vm_compute; reflexivity|]. split; [reflexivity|]. split; [reflexivity|]. intro Q. discriminate Q. Qed.

(** After such a panic there are indices below [len] that the heap does not know, and
    making the heap smaller panics (though every comparison returns). *)
Theorem clone_panic_refuted : exists (vlt : unit -> nat -> nat -> unit * option bool) h h' i n, calm vlt vlt /\ panic_hist vlt vlt h tt /\
  p_resize_clone vlt vlt h tt 4 2 = Ret (false, h', tt) /\ i < len h' /\ n < len h' /\
  g_is_enqueued h' i = Panic PBounds /\ p_enqueue vlt h' tt i = Panic PBounds /\ p_resize vlt vlt h' tt n = Panic PBounds.
Proof.
  exists (fun w _ _ => (w, Some false)), g_heap_empty. eexists. exists 1, 0. split; [split; cbn; discriminate|]. split; [apply ph_new|].
  split; [vm_compute; reflexivity|]. vm_compute. auto 10.
Qed.
(** A heap with one enqueued index; the second of three clones panics. *)
Example clone_panic_example : exists h h', panic_hist fifth fifth h 0 /\ p_resize_clone fifth fifth h 0 5 1 = Ret (false, h', 0) /\ len h = 1 /\ enqueued h' 0 /\ len h + 1 + 1 < 5 /\ longer 1 h h'.
Proof.
  destruct (p_resize_enqueued fifth fifth g_heap_empty 0 1 (fun w => w)) as [[[b h] w]| |] eqn:E; [|discriminate|discriminate].
  assert (H : panic_hist fifth fifth h 0).
  { apply (ph_world _ _ h w). eapply ph_resize_enqueued; [apply (ph_new _ _ 0)| |exact E]. intro Q. discriminate Q. }
  vm_compute in E. injection E as <- <- <-. eexists _, _. split; [exact H|]. split; [vm_compute; reflexivity|]. vm_compute. auto 10.
Qed.

(** The function panics for the third of four values. *)
Example apply_panic_example : exists h : @g_heap nat, g_h_values h = [3; 5; 0; 7] /\
  p_apply_monotone (shape_of h) (g_h_values h) (on_value (fun v => if v =? 0 then None else Some (2 * v))) = (false, shape_of h, [6; 10; 0; 7]).
Proof. exists (g_mkHeap [3; 5; 0; 7] [Some 1; Some 0; None; None] [1; 0]). split; reflexivity. Qed.

Print Assumptions apply_panic.
Print Assumptions apply_pure.
Print Assumptions panic_safe.
Print Assumptions clone_panic_partial.
Print Assumptions clone_panic_calls_partial.
Print Assumptions clone_panic_refuted.
Print Assumptions panic_resize.
Print Assumptions pure_instance.
