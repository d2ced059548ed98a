(** MutScan: slot-level operations refine a list filter-map. *)
From Coq Require Import List Bool Arith Lia.
From Verif Require Import Model_Base Model_MutScan Spec Drivers Proof_Base.
Import ListNotations.

Section MS.
Context {T : Type}.
Variable size : nat.
Hypothesis Hsize : size <> 0.
Implicit Types (m : mutscan T) (kept rest : list T).

Definition ms_rep (m : mutscan T) (kept : list T) (gap : nat) (rest : list T) : Prop :=
  ms_buf m = map Some kept ++ repeat None gap ++ map Some rest /\
  ms_write m = length kept /\ ms_read m = length kept + gap /\
  ms_end m = length kept + gap + length rest.

Lemma ms_rep_new v : ms_rep (ms_new v) [] 0 v.
Proof. unfold ms_rep, ms_new; simpl. auto. Qed.

Lemma upd_app_r {A} (l1 l2 : list A) i a :
  upd (l1 ++ l2) (length l1 + i) a = l1 ++ upd l2 i a.
Proof. induction l1; simpl; auto. f_equal. apply IHl1. Qed.

Lemma nth_app_r {A} (l1 l2 : list A) i : nth_error (l1 ++ l2) (length l1 + i) = nth_error l2 i.
Proof. rewrite nth_error_app2 by lia. f_equal. lia. Qed.

Lemma repeat_snoc {A} (a : A) n : repeat a n ++ [a] = repeat a (S n).
Proof. induction n; simpl; auto. f_equal. apply IHn. Qed.

Lemma ms_next_end m kept gap : ms_rep m kept gap [] -> ms_next size m = Ret None.
Proof.
  intros (H1 & H2 & H3 & H4). unfold ms_next. rewrite H3, H4. simpl.
  rewrite Nat.add_0_r, Nat.eqb_refl. reflexivity.
Qed.

Lemma ms_next_item m kept gap x rest : ms_rep m kept gap (x :: rest) ->
  exists m1, ms_next size m = Ret (Some (x, m1)) /\ ms_rep m1 kept (S gap) rest.
Proof.
  intros (H1 & H2 & H3 & H4). unfold ms_next. rewrite H3, H4.
  destruct (Nat.eqb_spec ((length kept + gap) * size) ((length kept + gap + length (x :: rest)) * size)) as [E|E].
  { apply Nat.mul_cancel_r in E; auto. simpl in E. lia. }
  unfold slot_take. rewrite H1.
  replace (length kept + gap) with (length (map (@Some T) kept) + (length (repeat (@None T) gap) + 0))
    by (rewrite map_length, repeat_length; lia).
  rewrite !nth_app_r. cbn [nth_error map bind]. rewrite !upd_app_r. cbn [upd].
  eexists. split; [reflexivity|]. unfold ms_rep; cbn [ms_buf ms_read ms_write ms_end].
  rewrite map_length, repeat_length. simpl. repeat split; try lia.
  f_equal. change (None :: map Some rest) with ([@None T] ++ map Some rest).
  rewrite app_assoc, repeat_snoc. reflexivity.
Qed.

Lemma nth_mid kept (z : option T) r : nth_error (map Some kept ++ z :: r) (length kept) = Some z.
Proof. induction kept; simpl; auto. Qed.
Lemma upd_mid kept (z z' : option T) r :
  upd (map Some kept ++ z :: r) (length kept) z' = map Some kept ++ z' :: r.
Proof. induction kept; simpl; auto. f_equal. auto. Qed.

Lemma ms_keep_ok m kept gap rest y : ms_rep m kept (S gap) rest ->
  exists m1, ms_keep m y = Ret m1 /\ ms_rep m1 (kept ++ [y]) gap rest.
Proof.
  intros (H1 & H2 & H3 & H4). unfold ms_keep, slot_put. rewrite H1, H2.
  cbn [repeat app]. rewrite nth_mid, upd_mid. cbn [bind].
  eexists. split; [reflexivity|]. unfold ms_rep; cbn [ms_buf ms_read ms_write ms_end].
  rewrite app_length. simpl. repeat split; try lia.
  rewrite map_app, <- app_assoc. reflexivity.
Qed.

Lemma ms_remove_ok m kept gap rest : ms_rep m kept gap rest -> ms_rep (ms_remove m) kept gap rest.
Proof. auto. Qed.

Lemma slot_move_ok kept gap x rest :
  slot_move (map Some kept ++ repeat None gap ++ map (@Some T) (x :: rest))
     (length kept + gap) (length kept) =
  Ret (map Some (kept ++ [x]) ++ repeat None gap ++ map Some rest).
Proof.
  unfold slot_move.
  destruct (Nat.eqb_spec (length kept + gap) (length kept)) as [E|E].
  - assert (gap = 0) as -> by lia. simpl.
    replace (length kept + 0) with (length (map (@Some T) kept) + 0) by (rewrite map_length; lia).
    rewrite nth_app_r. simpl. rewrite map_app, <- app_assoc. reflexivity.
  - destruct gap as [|gap]; [lia|]. unfold slot_take.
    replace (length kept + S gap) with (length (map (@Some T) kept) + (length (repeat (@None T) (S gap)) + 0))
      by (rewrite map_length, repeat_length; lia).
    rewrite !nth_app_r. cbn [nth_error map bind]. rewrite !upd_app_r. cbn [upd].
    unfold slot_put.
    cbn [repeat app]. rewrite nth_mid, upd_mid. cbn [bind].
    rewrite map_app, <- app_assoc. cbn [map app]. do 3 f_equal.
    change (None :: map Some rest) with ([@None T] ++ map Some rest).
    rewrite app_assoc, repeat_snoc. reflexivity.
Qed.

Lemma ms_copy_ok rest : forall kept gap,
  ms_copy (length rest) (map Some kept ++ repeat None gap ++ map (@Some T) rest)
     (length kept + gap) (length kept) =
  Ret (map Some (kept ++ rest) ++ repeat None gap).
Proof.
  induction rest as [|x rest IH]; intros kept gap.
  - simpl. rewrite !app_nil_r. reflexivity.
  - cbn [length ms_copy]. rewrite slot_move_ok. cbn [bind].
    replace (length kept + gap + 1) with (length (kept ++ [x]) + gap) by (rewrite app_length; simpl; lia).
    replace (length kept + 1) with (length (kept ++ [x])) by (rewrite app_length; simpl; lia).
    rewrite IH, <- app_assoc. reflexivity.
Qed.

Lemma slots_vec_ok v tail : slots_vec (length v) (map (@Some T) v ++ tail) = Ret v.
Proof. induction v; simpl; auto. rewrite IHv. reflexivity. Qed.

Lemma offset_ok p q : offset_from size p q = Ret (p - q).
Proof. unfold offset_from. rewrite (proj2 (Nat.eqb_neq _ _) Hsize). cbn [negb]. rewrite <- Nat.mul_sub_distr_r, Nat.div_mul by auto. reflexivity. Qed.

Lemma ms_drop_ok m kept gap rest : ms_rep m kept gap rest -> ms_drop size m = Ret (kept ++ rest).
Proof.
  intros (H1 & H2 & H3 & H4). unfold ms_drop. rewrite offset_ok. cbn [bind]. rewrite H1, H2, H3, H4.
  replace (length kept + gap + length rest - (length kept + gap)) with (length rest) by lia.
  rewrite ms_copy_ok. cbn [bind]. rewrite offset_ok, Nat.sub_0_r. cbn [bind].
  replace (length kept + length rest) with (length (kept ++ rest)) by (rewrite app_length; lia).
  apply slots_vec_ok.
Qed.

Lemma ms_run_ok {S} (f : S -> T -> res (S * ms_action T)) rest :
  forall fuel m kept gap s, ms_rep m kept gap rest -> length rest < fuel ->
  bind (ms_run size fuel f m s) (fun '(s', m') => bind (ms_drop size m') (fun v' => Ret (s', v'))) =
  bind (scan_list f rest s) (fun '(s', v') => Ret (s', kept ++ v')).
Proof.
  induction rest as [|x rest IH]; intros fuel m kept gap s Hm Hf;
    (destruct fuel as [|fuel]; [simpl in Hf; lia|]); cbn [ms_run].
  - rewrite (ms_next_end _ _ _ Hm). cbn [bind]. rewrite (ms_drop_ok _ _ _ _ Hm). reflexivity.
  - destruct (ms_next_item _ _ _ _ _ Hm) as (m1 & -> & Hm1). cbn [bind scan_list].
    simpl in Hf. destruct (f s x) as [[s' act]| |]; cbn [bind]; auto.
    destruct act as [y| |y].
    + destruct (ms_keep_ok _ _ _ _ y Hm1) as (m2 & -> & Hm2). cbn [bind].
      rewrite (IH fuel _ _ _ s' Hm2) by lia.
      destruct (scan_list f rest s') as [[s'' r']| |]; cbn [bind]; auto.
      rewrite <- app_assoc. reflexivity.
    + rewrite (IH fuel _ _ _ s' (ms_remove_ok _ _ _ _ Hm1)) by lia. reflexivity.
    + destruct (ms_keep_ok _ _ _ _ y Hm1) as (m2 & -> & Hm2). cbn [bind].
      rewrite (ms_drop_ok _ _ _ _ Hm2). cbn [bind]. rewrite <- app_assoc. reflexivity.
Qed.

Lemma ms_scan_refines {S} (f : S -> T -> res (S * ms_action T)) v s :
  ms_scan size f v s = scan_list f v s.
Proof.
  unfold ms_scan. etransitivity; [apply (ms_run_ok f v _ _ [] 0 s (ms_rep_new v)); lia|].
  destruct (scan_list f v s) as [[? ?]| |]; reflexivity.
Qed.

Lemma ms_client_ok ds : forall m kept gap rest, ms_rep m kept gap rest ->
  length ds <= length rest ->
  exists m', ms_client size ds m = Ret (firstn (length ds) rest, m') /\
    exists gap', ms_rep m' (kept ++ keeps ds) gap' (skipn (length ds) rest).
Proof.
  induction ds as [|d ds IH]; intros m kept gap rest Hm Hl.
  - exists m. simpl. rewrite app_nil_r. eauto.
  - destruct rest as [|x rest]; [simpl in Hl; lia|].
    destruct (ms_next_item _ _ _ _ _ Hm) as (m1 & E & Hm1). simpl in Hl.
    cbn [ms_client]. rewrite E. cbn [bind]. destruct d as [y|].
    + destruct (ms_keep_ok _ _ _ _ y Hm1) as (m2 & -> & Hm2). cbn [bind].
      destruct (IH _ _ _ _ Hm2 ltac:(lia)) as (m' & -> & gap' & H). cbn [bind].
      eexists. split; [reflexivity|]. exists gap'. rewrite <- app_assoc in H. exact H.
    + cbn [bind]. destruct (IH _ _ _ _ (ms_remove_ok _ _ _ _ Hm1) ltac:(lia)) as (m' & -> & gap' & H).
      cbn [bind]. eexists. split; [reflexivity|]. exists gap'. exact H.
Qed.
End MS.

Lemma ms_filter_map {T} size (v : list T) (ds : list (option T)) : size <> 0 ->
  length ds <= length v ->
  exists m, ms_client size ds (ms_new v) = Ret (firstn (length ds) v, m) /\
    ms_drop size m = Ret (keeps ds ++ skipn (length ds) v) /\
    (length ds = length v -> ms_next size m = Ret None).
Proof.
  intros Hs H. destruct (ms_client_ok size Hs ds _ _ _ _ (ms_rep_new v) H) as (m & E & gap & Hm).
  exists m. split; auto. split; [exact (ms_drop_ok size Hs _ _ _ _ Hm)|].
  intro El. rewrite El, skipn_all in Hm. exact (ms_next_end size _ _ _ Hm).
Qed.
