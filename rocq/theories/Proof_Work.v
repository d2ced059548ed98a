(** The work of unit propagation. *)
From Coq Require Import NArith List Bool Arith Lia Permutation Sorted ZifyN ZifyNat ZifyBool.
From Verif Require Import Model_Base Model_Lit Model_PartialAssignment Model_Header Model_MutScan Model_Arena Model_Prop
  Model_Cost Model_Work Spec Drivers_Arena Proof_Base Proof_PA Proof_Lit Proof_Header Proof_Arena Proof_ArenaHist Proof_Long Proof_Trail
  Proof_Backtrack Proof_Inv Proof_Propagate Proof_Cost.
Import ListNotations.

(** ** Erasing the counter *)
Lemma er_binary dbg cl others : forall p, erase (binary_loop_n dbg p cl others) = binary_loop dbg p cl others.
Proof.
  induction others as [|o r IH]; intro p; [reflexivity|]. cbn [binary_loop_n binary_loop].
  apply er_bind; [apply er_units|]. intros [|]; auto. apply er_bind; [apply er_units|]. intros [|]; auto.
  apply er_bind; [apply er_units|]. intros [v tr]. auto.
Qed.
Lemma er_search vals ls len k : forall pos, erase (search_loop_n vals ls len k pos) = search_loop vals ls len k pos.
Proof.
  induction k as [|k IH]; intro pos; [reflexivity|]. cbn [search_loop_n search_loop].
  apply er_bind; [apply er_units|]. intro x. apply er_bind; [apply er_units|]. intros [|]; cbn [negb]; auto.
  apply er_bind; [apply er_units|]. auto.
Qed.
Lemma er_watch dbg w0 st w : erase (watch_body_n dbg w0 st w) = watch_body dbg w0 st w.
Proof.
  destruct st as [p r]. unfold watch_body_n, watch_body. apply er_bind; [apply er_units|]. intros [|]; auto.
  apply er_bind; [apply er_units|]. intro ls. destruct (Nat.ltb _ _); auto.
  do 4 (apply er_bind; [apply er_units|]; intros ?). apply er_bind; [apply er_units|]. intros [|]; auto.
  apply er_bind; [apply er_search|]. intros [pos found]. apply er_bind; [apply er_units|]. intro ar.
  destruct found as [[sl [|]]|]; auto.
  - apply er_bind; [apply er_units|]. intro ws. apply er_bind; [apply er_units|]. auto.
  - apply er_bind; [apply er_units|]. intros [|]; auto. apply er_bind; [apply er_units|]. intro ar2.
    apply er_bind; [apply er_units|]. intros [v tr]. auto.
Qed.
Lemma er_loop dbg w0 v : forall s, erase (watch_loop_n dbg w0 v s) = scan_list (watch_body dbg w0) v s.
Proof.
  induction v as [|x r IH]; intro s; [reflexivity|]. cbn [watch_loop_n scan_list]. apply er_bind; [apply er_watch|].
  intros [s' [y| |y]]; auto. apply er_bind; [apply IH|]. intros [s'' r']. auto.
Qed.
Lemma er_long dbg p l : erase (propagate_long_clauses_n dbg p l) = propagate_long_clauses dbg p l.
Proof.
  unfold propagate_long_clauses_n, propagate_long_clauses. apply er_bind; [apply er_units|]. intros [wl ws].
  apply er_bind; [apply er_loop|]. intros [[p2 r] wl']. apply er_bind; [apply er_units|]. auto.
Qed.
Lemma er_literal dbg p l : erase (propagate_literal_n dbg p l) = propagate_literal dbg p l.
Proof.
  unfold propagate_literal_n, propagate_literal. apply er_bind.
  - unfold propagate_binary_clauses_n, propagate_binary_clauses. apply er_bind; [apply er_units|]. intro. apply er_binary.
  - intros [p1 [c|]]; auto. apply er_long.
Qed.
Lemma er_ploop dbg fuel : forall p, erase (propagate_loop_n fuel dbg p) = propagate_loop fuel dbg p.
Proof.
  induction fuel as [|f IH]; intro p; [reflexivity|]. cbn [propagate_loop_n propagate_loop].
  destruct (next_unpropagated_lit (p_trail p)) as [l|]; auto. apply er_bind; [apply er_literal|]. intros [p1 [c|]]; auto.
  apply er_bind; [apply er_units|]. auto.
Qed.
Lemma er_propagate dbg cx p : erase (propagate_n dbg cx p) = propagate dbg cx p.
Proof.
  unfold propagate_n, propagate. apply er_bind; [apply er_units|]. intro p0. apply er_bind; [apply er_ploop|]. intros [p1 [c|]]; auto.
Qed.

(** ** The potential of one clause *)
Section Pot.
Variable F : list N.
Definition fal (x : N) : bool := inb (neg x) F.
(** Length without the false literals at the end. *)
Fixpoint tlen (r : list N) : nat :=
  match r with
  | [] => 0
  | x :: r' => match tlen r' with O => if fal x then 0 else 1 | S k => S (S k) end
  end.
Definition open_cnt (r : list N) : nat := length (filter (fun x => negb (fal x)) r).
Definition rot (q : nat) (r : list N) : list N := skipn q r ++ firstn q r.
Definition sat (l : list N) : bool := existsb (fun x => inb x F) l.
Definition clp (h : long_header) (l : list N) : nat :=
  match l with
  | a :: b :: r => tlen (rot (N.to_nat (lh_search_pos h)) r) + 2 * open_cnt r + (if sat l then 0 else length r)
  | _ => 0
  end.

Lemma tlen_le r : tlen r <= length r.
Proof. induction r as [|x r IH]; cbn [tlen length]; [lia|]. destruct (tlen r); [destruct (fal x)|]; lia. Qed.
Lemma open_le r : open_cnt r <= length r.
Proof. unfold open_cnt. induction r as [|x r IH]; cbn [filter]; [auto|]. destruct (negb (fal x)); cbn [length]; lia. Qed.
Lemma tlen_false r : (forall x, In x r -> fal x = true) -> tlen r = 0.
Proof. induction r as [|x r IH]; intro H; [auto|]. cbn [tlen]. rewrite IH by (intros; apply H; right; auto). rewrite (H x) by (left; auto). auto. Qed.
Lemma tlen_app_false a b : (forall x, In x b -> fal x = true) -> tlen (a ++ b) = tlen a.
Proof. intro H. induction a as [|x a IH]; cbn [app tlen]; [apply tlen_false; auto|]. rewrite IH. auto. Qed.
Lemma tlen_app a b : 0 < tlen b -> tlen (a ++ b) = length a + tlen b.
Proof. intro H. induction a as [|x a IH]; cbn [app tlen length]; [auto|]. rewrite IH. destruct (length a + tlen b) eqn:E; lia. Qed.
Lemma tlen_cons_open x r : fal x = false -> 0 < tlen (x :: r).
Proof. intro H. cbn [tlen]. rewrite H. destruct (tlen r); lia. Qed.
Lemma rot_length q r : length (rot q r) = length r.
Proof. unfold rot. rewrite app_length, Nat.add_comm, <- app_length, firstn_skipn. auto. Qed.
Lemma tlen_head x y r : fal y = true -> tlen (y :: r) <= tlen (x :: r).
Proof. intro H. cbn [tlen]. rewrite H. destruct (tlen r); destruct (fal x); lia. Qed.
Lemma open_app a b : open_cnt (a ++ b) = open_cnt a + open_cnt b.
Proof. unfold open_cnt. rewrite filter_app, app_length. auto. Qed.
Lemma open_cons x r : open_cnt (x :: r) = (if fal x then 0 else 1) + open_cnt r.
Proof. unfold open_cnt. cbn [filter]. destruct (fal x); cbn [negb length]; auto. Qed.

Lemma rot_step q x r : nth_error r q = Some x ->
  exists r1, rot q r = x :: r1 /\ rot (if q + 1 =? length r then 0 else q + 1) r = r1 ++ [x].
Proof.
  intro E. destruct (nth_error_split _ _ E) as (l1 & l2 & -> & <-). unfold rot.
  exists (l2 ++ l1). split.
  - rewrite firstn_app, skipn_app, Nat.sub_diag, skipn_all2, firstn_all2 by lia. cbn [skipn firstn app]. rewrite app_nil_r. auto.
  - rewrite app_length. cbn [length]. destruct (Nat.eqb_spec (length l1 + 1) (length l1 + S (length l2))) as [Q|Q].
    + destruct l2; [|cbn in Q; lia]. cbn [skipn firstn app]. rewrite app_nil_r. auto.
    + rewrite firstn_app, skipn_app. replace (length l1 + 1 - length l1) with 1 by lia.
      rewrite skipn_all2, firstn_all2 by lia. cbn [skipn firstn app]. rewrite <- app_assoc. auto.
Qed.

Lemma search_work n vals a b r k : VR n vals F -> (forall x, In x (a :: b :: r) -> vidx x < n) ->
  k <= length r -> forall pos, pos < length r ->
  forall res w, search_loop_n vals (a :: b :: r) (length r) k pos = Ret (res, w) ->
  exists pos', pos' < length r /\
    ((res = (pos', None) /\ w = k /\ forall x, In x (firstn k (rot pos r)) -> fal x = true) \/
     exists s x t, res = (pos', Some (x, t)) /\ w = s + 1 /\ s < k /\ fal x = false /\ nth_error r pos' = Some x /\ t = inb x F /\
       (forall y, In y (firstn s (rot pos r)) -> fal y = true) /\
       rot pos' r = skipn s (rot pos r) ++ firstn s (rot pos r) /\ exists tl, skipn s (rot pos r) = x :: tl).
Proof.
  intros HV Hr. induction k as [|k IH]; intros Hk pos Hp res w E.
  - inversion E; subst. exists pos. split; [auto|]. left. split; [auto|]. split; [auto|]. intros x [].
  - cbn [search_loop_n] in E. apply bindC_ret in E as (x & k1 & k2 & E1 & E & ->). apply units_ret in E1 as [E1 ->].
    apply vget_ok in E1. cbn [nth_error Nat.add] in E1. destruct (rot_step _ _ _ E1) as (r1 & R1 & R2).
    assert (Hx : vidx x < n) by (apply Hr; right; right; eapply nth_error_In; eauto).
    apply bindC_ret in E as (f & k1 & k3 & E2 & E & ->). apply units_ret in E2 as [E2 ->].
    rewrite (VR_false _ _ _ _ HV Hx) in E2. inversion E2; subst f. fold (fal x) in E. destruct (fal x) eqn:Ef; cbn [negb] in E.
    + pose proof (rot_length pos r) as L1. rewrite R1 in L1. cbn [length] in L1.
      assert (Hn : (if pos + 1 =? length r then 0 else pos + 1) < length r) by (destruct (Nat.eqb_spec (pos + 1) (length r)); lia).
      destruct (IH ltac:(lia) _ Hn _ _ E) as (pos' & P & [(-> & -> & Q)|(s & y & t & -> & -> & Q1 & Q2 & Q3 & Q4 & Q5 & Q6 & tl & Q7)]).
      * exists pos'. split; [auto|]. left. split; [auto|]. split; [auto|]. rewrite R1. cbn [firstn]. intros y [<-|Hy]; auto.
        apply Q. rewrite R2, firstn_app. apply in_or_app. auto.
      * exists pos'. split; auto. right. rewrite R2 in Q5, Q6, Q7. rewrite R1. exists (S s), y, t.
        assert (L2 : s - length r1 = 0) by lia. rewrite firstn_app, skipn_app in *. rewrite L2 in *. cbn [skipn firstn] in *. rewrite app_nil_r in *.
        split; auto. split; [lia|]. split; [lia|]. split; auto. split; auto. split; auto. split.
        { intros z [<-|Hz]; auto. }
        split; [rewrite Q6, <- app_assoc; reflexivity|].
        destruct (skipn s r1) as [|z tl'] eqn:Es; [|cbn [app] in Q7; inversion Q7; subst; eauto].
        exfalso. apply f_equal with (f := @length N) in Es. rewrite skipn_length in Es. cbn in Es. lia.
    + apply bindC_ret in E as (t & k1 & k2 & E3 & E & ->). apply units_ret in E3 as [E3 ->]. rewrite (VR_true _ _ _ _ HV Hx) in E3. inversion E3; subst t.
      inversion E; subst. exists pos. split; auto. right. exists 0, x, (inb x F). split; auto. split; auto. split; [lia|]. split; auto. split; auto. split; auto.
      split; [intros y []|]. cbn [skipn firstn]. rewrite app_nil_r. split; auto. exists r1. rewrite R1. auto.
Qed.
End Pot.

Lemma fal_mono F F' x : incl F F' -> fal F x = true -> fal F' x = true.
Proof. unfold fal. intros H E. destruct (inb_spec (neg x) F); [|discriminate]. destruct (inb_spec (neg x) F'); auto. Qed.
Lemma tlen_mono F F' r : incl F F' -> tlen F' r <= tlen F r.
Proof.
  intro H. induction r as [|x r IH]; cbn [tlen]; [lia|]. pose proof (fal_mono F F' x H) as G.
  destruct (tlen F' r), (tlen F r); try lia; destruct (fal F x); try rewrite G by auto; try destruct (fal F' x); lia.
Qed.
Lemma open_mono F F' r : incl F F' -> open_cnt F' r <= open_cnt F r.
Proof.
  intro H. induction r as [|x r IH]; [auto|]. rewrite !open_cons. pose proof (fal_mono F F' x H) as G.
  destruct (fal F x); try rewrite G by auto; try destruct (fal F' x); lia.
Qed.
Lemma sat_mono F F' l : incl F F' -> sat F l = true -> sat F' l = true.
Proof.
  unfold sat. rewrite !existsb_exists. intros H (x & A & B). exists x. split; auto. destruct (inb_spec x F); [|discriminate].
  destruct (inb_spec x F'); auto.
Qed.
Lemma clp_mono F F' h l : incl F F' -> clp F' h l <= clp F h l.
Proof.
  intro H. destruct l as [|a [|b r]]; cbn [clp]; auto. pose proof (tlen_mono F F' (rot (N.to_nat (lh_search_pos h)) r) H).
  pose proof (open_mono F F' r H). pose proof (sat_mono F F' (a :: b :: r) H) as G.
  destruct (sat F (a :: b :: r)); [rewrite G by auto; lia|]. destruct (sat F' (a :: b :: r)); lia.
Qed.
Lemma clp_le F h l : clp F h l <= 4 * length l.
Proof.
  destruct l as [|a [|b r]]; cbn [clp]; [lia|lia|]. pose proof (tlen_le F (rot (N.to_nat (lh_search_pos h)) r)). rewrite rot_length in H.
  pose proof (open_le F r). destruct (sat F (a :: b :: r)); cbn [length]; lia.
Qed.
Lemma sat_perm F l l' : Permutation l l' -> sat F l = sat F l'.
Proof.
  intro H. unfold sat. apply eq_true_iff_eq. rewrite !existsb_exists. split; intros (x & A & B); exists x; split; auto; [apply (Permutation_in _ H); auto|apply (Permutation_in _ (Permutation_sym H)); auto].
Qed.

(** The search found a literal after [s] false ones. *)
Lemma clp_found F h h' a b r s pos x tl : N.to_nat (lh_search_pos h) = pos ->
  (forall y, In y (firstn s (rot pos r)) -> fal F y = true) -> fal F x = false ->
  skipn s (rot pos r) = x :: tl -> s < length r ->
  rot (N.to_nat (lh_search_pos h')) r = skipn s (rot pos r) ++ firstn s (rot pos r) ->
  s + clp F h' (a :: b :: r) = clp F h (a :: b :: r).
Proof.
  intros Ep Hf Hx Es Ls Er. cbn [clp]. rewrite Ep, Er, tlen_app_false by auto.
  rewrite <- (firstn_skipn s (rot pos r)) at 2. rewrite tlen_app by (rewrite Es; apply tlen_cons_open; auto).
  rewrite firstn_length, rot_length. lia.
Qed.
Lemma rot_mid l1 x l2 : rot (length l1) (l1 ++ x :: l2) = x :: l2 ++ l1.
Proof. unfold rot. rewrite firstn_app, skipn_app, Nat.sub_diag, skipn_all2, firstn_all2 by lia. cbn [skipn firstn app]. rewrite app_nil_r. auto. Qed.
Lemma clp_move F h' a b r r1 r2 sl other w0 : r = r1 ++ sl :: r2 -> N.to_nat (lh_search_pos h') = length r1 ->
  fal F sl = false -> fal F w0 = true -> Permutation (a :: b :: r) (sl :: other :: r1 ++ w0 :: r2) ->
  2 + clp F h' (sl :: other :: r1 ++ w0 :: r2) <= clp F h' (a :: b :: r).
Proof.
  intros -> Ep Hs Hw HP. cbn [clp]. rewrite (sat_perm F _ _ HP), Ep, !rot_mid, !open_app, !open_cons, Hs, Hw, !app_length. cbn [length].
  pose proof (tlen_head F sl w0 (r2 ++ r1) Hw). lia.
Qed.
Lemma clp_fail F h a b r : sat F (a :: b :: r) = false -> length r <= clp F h (a :: b :: r).
Proof. intro H. cbn [clp]. rewrite H. lia. Qed.
Lemma clp_done F h a b r : (forall x, In x r -> fal F x = true) -> sat F (a :: b :: r) = true -> clp F h (a :: b :: r) = 0.
Proof.
  intros H Hs. cbn [clp]. rewrite Hs. rewrite tlen_false.
  - assert (open_cnt F r = 0); [|lia]. clear -H. induction r as [|x r IH]; auto. rewrite open_cons, H by (left; auto). apply IH. intros; apply H; right; auto.
  - intros x Hx. apply H. unfold rot in Hx. rewrite <- (firstn_skipn (N.to_nat (lh_search_pos h)) r). apply in_app_or in Hx. apply in_or_app. tauto.
Qed.

(** ** The potential of a state *)
Definition cpot (p : prop) (c : nat) : nat :=
  match long_lits (p_long p) c, long_header_of (p_long p) c with
  | Ret l, Ret h => clp (slits (t_steps (p_trail p))) h l
  | _, _ => 0
  end.
Definition epot (p : prop) (cs : list nat) : nat := list_sum (map (cpot p) cs).
Definition unproc (p : prop) (x : N) : bool := negb (inb (neg x) (slits (firstn (t_propagated (p_trail p)) (t_steps (p_trail p))))).
Definition codes (n : nat) : list N := map N.of_nat (seq 0 (2 * n)).
Definition apot (n : nat) (p : prop) : nat :=
  list_sum (map (fun x => if unproc p x then length (wfun (ws_by_lit (p_watches p)) x) else 0) (codes n)).
Definition bpot (n : nat) (p : prop) : nat :=
  list_sum (map (fun x => if unproc p x then length (bin (p_binary p) x) else 0) (codes n)).

Lemma cpot_in p es c h l : LR (p_long p) es -> In (c, h, l) es -> cpot p c = clp (slits (t_steps (p_trail p))) h l.
Proof. intros H Hi. unfold cpot. rewrite (LR_lits _ _ H _ _ _ Hi), (LR_header _ _ H _ _ _ Hi). auto. Qed.

Lemma sum_le {A} (f g : A -> nat) cs : (forall c, In c cs -> f c <= g c) -> list_sum (map f cs) <= list_sum (map g cs).
Proof. intro H. induction cs as [|c cs IH]; cbn [map list_sum fold_right]; auto. pose proof (H c (or_introl eq_refl)). specialize (IH (fun c Hc => H c (or_intror Hc))). unfold list_sum in IH. lia. Qed.
Lemma sum_upd {A} (f g : A -> nat) c d cs : NoDup cs -> In c cs -> (forall x, In x cs -> x <> c -> f x <= g x) -> d + f c <= g c ->
  d + list_sum (map f cs) <= list_sum (map g cs).
Proof.
  intros ND Hc H Hd. induction cs as [|x cs IH]; [destruct Hc|]. inversion ND as [|? ? N1 N2]; subst. cbn [map list_sum fold_right]. fold (list_sum (map f cs)). fold (list_sum (map g cs)).
  destruct Hc as [->|Hc].
  - assert (list_sum (map f cs) <= list_sum (map g cs)); [|lia]. apply sum_le. intros y Hy. apply H; [right; auto|]. intros ->; auto.
  - assert (x <> c) by (intros ->; auto). pose proof (H x (or_introl eq_refl) H0). specialize (IH N2 Hc (fun y Hy => H y (or_intror Hy))). lia.
Qed.

Lemma epot_le p p' es es' : LR (p_long p) es -> LR (p_long p') es' -> map le_ref es' = map le_ref es ->
  (forall c h l, In (c, h, l) es -> exists h' l', In (c, h', l') es' /\ clp (slits (t_steps (p_trail p'))) h' l' <= clp (slits (t_steps (p_trail p))) h l) ->
  epot p' (map le_ref es) <= epot p (map le_ref es).
Proof.
  intros H H' Er Hs. apply sum_le. intros c Hc. apply in_map_iff in Hc as ([[c0 h] l] & E & Hi). unfold le_ref in E. cbn in E. subst c0.
  destruct (Hs _ _ _ Hi) as (h' & l' & Hi' & L). rewrite (cpot_in _ _ _ _ _ H Hi), (cpot_in _ _ _ _ _ H' Hi'). auto.
Qed.
Lemma epot_upd p p' es c h l h' l' d : LR (p_long p) es -> LR (p_long p') (les_upd c h' l' es) -> In (c, h, l) es ->
  incl (slits (t_steps (p_trail p))) (slits (t_steps (p_trail p'))) ->
  d + clp (slits (t_steps (p_trail p'))) h' l' <= clp (slits (t_steps (p_trail p))) h l ->
  d + epot p' (map le_ref es) <= epot p (map le_ref es).
Proof.
  intros H H' Hi HX Hd. apply sum_upd with (c := c).
  - eapply LR_nodup; eauto.
  - apply in_map_iff. exists (c, h, l). auto.
  - intros x Hx Ne. apply in_map_iff in Hx as ([[c0 h0] l0] & E & Hi0). unfold le_ref in E. cbn in E. subst c0.
    rewrite (cpot_in _ _ _ _ _ H Hi0). erewrite cpot_in; [|exact H'|apply upd_in_other; eauto]. apply clp_mono; auto.
  - rewrite (cpot_in _ _ _ _ _ H Hi). erewrite cpot_in; [|exact H'|eapply upd_in_same'; eauto]. auto.
Qed.
Lemma epot_in p es c h l : LR (p_long p) es -> In (c, h, l) es -> clp (slits (t_steps (p_trail p))) h l <= epot p (map le_ref es).
Proof.
  intros H Hi. rewrite <- (cpot_in _ _ _ _ _ H Hi). unfold epot. assert (Hc : In c (map le_ref es)) by (apply in_map_iff; exists (c, h, l); auto).
  induction (map le_ref es) as [|x cs IH]; [destruct Hc|]. cbn [map list_sum fold_right]. fold (list_sum (map (cpot p) cs)). destruct Hc as [->|Hc]; [lia|specialize (IH Hc); lia].
Qed.

(** ** One watch *)
Definition TR_q (t : trail) : Prop := t_propagated t <= length (t_steps t).
Lemma unproc_ext p p' ext x : TR_q (p_trail p) -> t_propagated (p_trail p') = t_propagated (p_trail p) ->
  t_steps (p_trail p') = t_steps (p_trail p) ++ ext -> unproc p' x = unproc p x.
Proof.
  intros Hq Eq Es. unfold unproc, TR_q in *. rewrite Eq, Es, firstn_app. replace (t_propagated (p_trail p) - length (t_steps (p_trail p))) with 0 by lia.
  cbn [firstn]. rewrite app_nil_r. auto.
Qed.
Lemma apot_same n p p' : (forall x, unproc p' x = unproc p x) -> ws_by_lit (p_watches p') = ws_by_lit (p_watches p) -> apot n p' = apot n p.
Proof. intros H E. unfold apot. f_equal. apply map_ext. intro x. rewrite H, E. auto. Qed.
Lemma codes_nodup n : NoDup (codes n).
Proof. unfold codes. apply FinFun.Injective_map_NoDup; [intros a b; apply Nat2N.inj|apply seq_NoDup]. Qed.
Lemma sum_one (f g : N -> nat) x d ls : NoDup ls -> (forall y, In y ls -> y <> x -> f y <= g y) -> f x <= g x + d ->
  list_sum (map f ls) <= list_sum (map g ls) + d.
Proof.
  intros ND H Hx. induction ls as [|y ls IH]; cbn [map list_sum fold_right]; [lia|]. fold (list_sum (map f ls)). fold (list_sum (map g ls)).
  inversion ND as [|? ? N1 N2]; subst. destruct (N.eq_dec y x) as [->|Ne].
  - assert (list_sum (map f ls) <= list_sum (map g ls)); [|lia]. clear IH. induction ls as [|z ls IH]; cbn [map list_sum fold_right]; [lia|].
    fold (list_sum (map f ls)). fold (list_sum (map g ls)). inversion N2; subst. 
    pose proof (H z (or_intror (or_introl eq_refl)) ltac:(intros ->; apply N1; left; auto)).
    assert (list_sum (map f ls) <= list_sum (map g ls)); [|lia]. apply IH; auto.
    + intros y [<-|Hy] Hy'; [apply H; auto; left; auto|apply H; auto; right; right; auto].
    + constructor; auto. intro. apply N1. right; auto.
    + intro; apply N1; right; auto.
  - pose proof (H y (or_introl eq_refl) Ne). specialize (IH N2 (fun z Hz => H z (or_intror Hz))). lia.
Qed.
Lemma apot_push n p p' x w : vidx x < n -> length (ws_by_lit (p_watches p)) = 2 * n -> (forall y, unproc p' y = unproc p y) ->
  ws_by_lit (p_watches p') = upd (ws_by_lit (p_watches p)) (cidx x) (wfun (ws_by_lit (p_watches p)) x ++ [w]) -> apot n p' <= apot n p + 1.
Proof.
  intros Hx HL HU E. unfold apot. apply sum_one with (x := x); [apply codes_nodup| |].
  - intros y _ Ny. rewrite HU, E, (wfun_upd _ _ _ _ n) by auto. destruct (N.eqb_spec y x); [contradiction|auto].
  - rewrite HU, E, (wfun_upd _ _ _ _ n) by auto. rewrite N.eqb_refl. destruct (unproc p x); [|lia]. rewrite app_length. cbn. lia.
Qed.

Lemma watch_body_pot n es p w0 dbg kept w todo p' rs act k :
  scan_state n es p w0 (kept ++ w :: todo) -> watch_body_n dbg w0 (p, None) w = Ret (((p', rs), act), k) ->
  match act with
  | MSKeepStop _ => k <= 2 + epot p (map le_ref es)
  | _ => k + epot p' (map le_ref es) + 2 * apot n p' <= 2 + epot p (map le_ref es) + 2 * apot n p
  end.
Proof.
  intros (H & H0 & HE & Hn & Hd) E.
  set (ss := t_steps (p_trail p)) in *. set (bl := ws_by_lit (p_watches p)) in *.
  assert (TRn := pi_tr _ _ _ _ H). assert (HV := pi_vr _ _ _ _ H). assert (Hq : TR_q (p_trail p)) by apply (tr_q _ _ TRn).
  assert (Hw0 : ~ In w0 (slits ss)) by (intro G; apply (VR_cons _ _ _ _ HV G Hn)).
  destruct (wf_ref _ _ _ (pi_wf _ _ _ _ H) w0 w H0) as (Hbv & h & l & Hin & Hbl).
  { unfold Wk. rewrite N.eqb_refl. apply in_elt. }
  set (c := w_clause w) in *. unfold watch_body_n in E. fold c in E.
  apply bindC_ret in E as (bt & k1 & k2 & E1 & E & ->). apply units_ret in E1 as [_ ->].
  destruct bt; [inversion E; subst; lia|].
  rewrite (LR_lits _ _ (pi_lr _ _ _ _ H) _ _ _ Hin) in E.
  apply bindC_ret in E as (cl & k1 & k3 & E1 & E & ->). apply units_ret in E1 as [E1 ->]. inversion E1; subst cl. clear E1.
  destruct l as [|a [|b r]]; [inversion E; subst; lia|inversion E; subst; lia|].
  destruct (pi_ll _ _ _ _ H _ _ _ Hin ltac:(discriminate)) as (LL1 & LL2 & LL3).
  destruct (Nat.ltb_spec (length (a :: b :: r)) 2) as [Lt|_]; [simpl in Lt; lia|].
  rewrite (LR_header _ _ (pi_lr _ _ _ _ H) _ _ _ Hin) in E. cbn [vget nth_error] in E.
  assert (Hab : exists other, select_other dbg w0 a b = Ret other /\ ((a = w0 /\ b = other) \/ (a = other /\ b = w0))).
  { assert (C : 0 < wcnt c (Wk w0 (kept ++ w :: todo) bl w0)).
    { unfold Wk. rewrite N.eqb_refl. apply wcnt_in. apply in_elt. }
    rewrite (wf_cnt _ _ _ (pi_wf _ _ _ _ H) c h a b r Hin w0 H0) in C.
    destruct (N.eqb_spec w0 a) as [->|Na].
    - exists b. rewrite select_other_first. auto.
    - destruct (N.eqb_spec w0 b) as [->|Nb]; [|simpl in C; lia]. exists a. rewrite select_other_second. auto. }
  destruct Hab as (other & Eo & Hab).
  assert (HPo : Permutation (a :: b :: r) (other :: w0 :: r)).
  { destruct Hab as [[-> ->]|[-> ->]]; [apply perm_swap|apply Permutation_refl]. }
  assert (Hov : vidx other < n) by (apply LL3; eapply Permutation_in; [apply Permutation_sym; exact HPo|left; auto]).
  do 3 (let x := fresh "x" in let j := fresh "j" in let E1 := fresh "E1" in
        apply bindC_ret in E as (x & k1 & j & E1 & E & ->); apply units_ret in E1 as [E1 ->]; inversion E1; subst x; clear E1).
  rewrite Eo in E. apply bindC_ret in E as (o' & k1 & k4 & E1 & E & ->). apply units_ret in E1 as [E1 ->]. inversion E1; subst o'.
  rewrite (VR_true _ _ _ _ HV Hov) in E. apply bindC_ret in E as (ot & k1 & k5 & E2 & E & ->). apply units_ret in E2 as [E2 ->]. inversion E2; subst ot. fold ss in E.
  destruct (inb_spec other (slits ss)) as [Io|Io]; [inversion E; subst; lia|].
  replace (length (a :: b :: r) - 2) with (length r) in E by (cbn [length]; lia).
  apply bindC_ret in E as ([pos found] & ks & k6 & Es & E & ->).
  assert (Hp : N.to_nat (lh_search_pos h) < length r) by (cbn [length] in LL2; lia).
  destruct (search_work (slits ss) n _ a b r (length r) HV LL3 (Nat.le_refl _) _ Hp _ _ Es) as (pos' & P & HW).
  assert (Ep : pos = pos') by (destruct HW as [(Q & _)|(s & x & t & Q & _)]; inversion Q; auto). subst pos'.
  set (h' := lh_set_search_pos h (N.of_nat pos)) in *.
  assert (Hpos31 : (N.of_nat pos < 2147483648)%N).
  { pose proof (proj2 (proj2 (LR_ok _ _ (pi_lr _ _ _ _ H) _ _ _ Hin))) as Cl. unfold clear in Cl. cbn [length] in Cl. lia. }
  assert (Hok' : lh_ok h') by (apply lh_ok_set_search_pos; eapply LR_ok; eauto; apply (pi_lr _ _ _ _ H)).
  assert (Hsp : N.to_nat (lh_search_pos h') = pos) by (unfold h'; rewrite lh_search_pos_set by auto; lia).
  destruct (LR_set_header _ _ (pi_lr _ _ _ _ H) c h (a :: b :: r) h' Hin Hok') as (a1 & Ea1 & HL1).
  unfold store_search_pos in E. fold h' in E. rewrite Ea1 in E. clearbody h'.
  apply bindC_ret in E as (a1' & k1 & k7 & E3 & E & ->). apply units_ret in E3 as [E3 ->]. inversion E3; subst a1'. clear E3.
  assert (Hin1 : In (c, h', a :: b :: r) (les_upd c h' (a :: b :: r) es)) by (eapply upd_in_same'; eauto).
  destruct HW as [(Q & -> & HF)|(s & sl & t & Q & -> & Ls & Fs & Esl & -> & Hfs & Hrot & tl & Htl)]; inversion Q; subst found; clear Q.
  - (* all literals false *)
    assert (HFr : forall x, In x r -> fal (slits ss) x = true).
    { intros x Hx. apply HF. rewrite firstn_all2 by (rewrite rot_length; lia). unfold rot.
      rewrite <- (firstn_skipn (N.to_nat (lh_search_pos h)) r) in Hx. apply in_app_or in Hx. apply in_or_app. tauto. }
    assert (Hns : sat (slits ss) (a :: b :: r) = false).
    { apply not_true_is_false. unfold sat. rewrite existsb_exists. intros (x & Hx & Ix). destruct (inb_spec x (slits ss)) as [Jx|]; [|discriminate].
      apply (Permutation_in _ HPo) in Hx. destruct Hx as [<-|[<-|Hx]]; auto. specialize (HFr x Hx). unfold fal in HFr.
      destruct (inb_spec (neg x) (slits ss)) as [Kx|]; [|discriminate]. apply (VR_cons _ _ _ _ HV Jx Kx). }
    pose proof (clp_fail (slits ss) h a b r Hns) as Hc.
    apply bindC_ret in E as (f & k1 & k8 & E4 & E & ->). apply units_ret in E4 as [E4 ->].
    rewrite (VR_false _ _ _ _ HV Hov) in E4. inversion E4; subst f. fold ss in E.
    destruct (inb_spec (neg other) (slits ss)) as [If|If].
    + inversion E; subst. pose proof (epot_in _ _ _ _ _ (pi_lr _ _ _ _ H) Hin). fold ss in H1. lia.
    + cbn [upd] in E. destruct (LR_set_lits _ _ HL1 c h' (a :: b :: r) (other :: w0 :: r) Hin1) as (a2 & Ea2 & HL2).
      { reflexivity. }
      { apply Forall_forall. intros x Hx. eapply clear_lit; [apply (pi_n _ _ _ _ H)|]. apply LL3.
        eapply Permutation_in; [apply Permutation_sym; exact HPo|auto]. }
      rewrite Ea2 in E. rewrite les_upd_upd in HL2.
      apply bindC_ret in E as (a2' & k1 & k9 & E5 & E & ->). apply units_ret in E5 as [E5 ->]. inversion E5; subst a2'. clear E5.
      set (s := mkStep other (decision_level (p_trail p)) (RLong c)) in *.
      destruct (assign_raw_ok n dbg (p_values p) (p_trail p) s TRn HV Hov) as (v' & Ev & HV').
      { split; auto. }
      rewrite Ev in E. apply bindC_ret in E as ([v tr] & k1 & k10 & E5 & E & ->). apply units_ret in E5 as [E5 ->]. inversion E5; subst v tr. clear E5.
      inversion E; subst.
      set (p' := p_set_vt (p_set_long p a2) v' (t_push (p_trail p) s)).
      assert (Ess : t_steps (p_trail p') = ss ++ [s]) by reflexivity.
      assert (HI : incl (slits ss) (slits (t_steps (p_trail p')))) by (rewrite Ess, map_app; apply incl_appl, incl_refl).
      assert (Ha : apot n p' = apot n p).
      { apply apot_same; [|reflexivity]. intro x. eapply unproc_ext; eauto. }
      pose proof (epot_upd p p' es c h (a :: b :: r) h' (other :: w0 :: r) (length r) (pi_lr _ _ _ _ H) HL2 Hin HI) as HU.
      rewrite clp_done in HU; [fold ss in HU; specialize (HU ltac:(lia)); lia|intros x Hx; eapply fal_mono; eauto|].
      unfold sat. cbn [existsb]. rewrite Ess, map_app. destruct (inb_spec other (map s_lit ss ++ map s_lit [s])) as [|G]; auto.
      exfalso. apply G. apply in_or_app. right. left. reflexivity.
  - assert (Hc : s + clp (slits ss) h' (a :: b :: r) = clp (slits ss) h (a :: b :: r)).
    { eapply clp_found; eauto. rewrite Hsp. auto. }
    assert (Insl : In sl r) by (eapply nth_error_In; eauto).
    destruct (inb_spec sl (slits ss)) as [It|It].
    + inversion E; subst.
      assert (Ha : apot n (p_set_long p a1) = apot n p) by (apply apot_same; reflexivity).
      pose proof (epot_upd p (p_set_long p a1) es c h (a :: b :: r) h' (a :: b :: r) s (pi_lr _ _ _ _ H) HL1 Hin (incl_refl _)) as HU.
      cbn [p_set_long p_trail] in HU. fold ss in HU. specialize (HU ltac:(lia)). lia.
    + assert (Hslv : vidx sl < n) by (apply LL3; right; right; auto).
      apply bindC_ret in E as (ws & k1 & k8 & E4 & E & ->). apply units_ret in E4 as [E4 ->].
      unfold push_watch in E4. rewrite (pi_en _ _ _ _ H) in E4. unfold dassert in E4. cbn [negb andb] in E4. rewrite andb_false_r in E4.
      rewrite (vget_nth []) in E4 by (rewrite (pi_wl _ _ _ _ H); apply cidx_lt; auto). cbn [bind] in E4. fold bl in E4. fold (wfun bl sl) in E4.
      rewrite vset_lt in E4 by (unfold bl; rewrite (pi_wl _ _ _ _ H); apply cidx_lt; auto). cbn [bind] in E4. inversion E4; subst ws. clear E4.
      cbn [upd Nat.add] in E. destruct (upd_split r pos sl w0 Esl) as (r1 & r2 & Er & Lr1 & Eu). rewrite Eu in E.
      assert (HP : Permutation (a :: b :: r) (sl :: other :: r1 ++ w0 :: r2)).
      { eapply Permutation_trans; [exact HPo|]. rewrite Er. eapply Permutation_trans; [apply perm_skip, perm_skip, Permutation_sym, Permutation_middle|].
        eapply Permutation_trans; [|apply perm_skip, perm_skip, Permutation_middle].
        eapply Permutation_trans; [apply perm_skip, perm_swap|]. apply perm_swap. }
      destruct (LR_set_lits _ _ HL1 c h' (a :: b :: r) (sl :: other :: r1 ++ w0 :: r2) Hin1) as (a2 & Ea2 & HL2).
      { symmetry. apply Permutation_length; auto. }
      { apply Forall_forall. intros x Hx. eapply clear_lit; [apply (pi_n _ _ _ _ H)|]. apply LL3.
        eapply Permutation_in; [apply Permutation_sym; exact HP|auto]. }
      rewrite Ea2 in E. rewrite les_upd_upd in HL2.
      apply bindC_ret in E as (a2' & k1 & k9 & E5 & E & ->). apply units_ret in E5 as [E5 ->]. inversion E5; subst a2'. clear E5.
      inversion E; subst p' rs act k9. clear E.
      match goal with |- context [epot ?q _] => set (p' := q) end.
      assert (Ha : apot n p' <= apot n p + 1).
      { eapply apot_push; [exact Hslv|apply (pi_wl _ _ _ _ H)|reflexivity|reflexivity]. }
      assert (Hw : fal (slits ss) w0 = true) by (unfold fal; destruct (inb_spec (neg w0) (slits ss)); auto).
      pose proof (clp_move (slits ss) h' a b r r1 r2 sl other w0 Er ltac:(congruence) Fs Hw HP) as Hm.
      pose proof (epot_upd p p' es c h (a :: b :: r) h' _ (s + 2) (pi_lr _ _ _ _ H) HL2 Hin (incl_refl _)) as HU.
      change (slits (t_steps (p_trail p'))) with (slits ss) in HU. fold ss in HU. specialize (HU ltac:(lia)). lia.
Qed.

(** ** The watches of a literal *)
Lemma ESR_refs es es' : ESR es es' -> map le_ref es' = map le_ref es.
Proof. intro H. induction H as [|e e' r r' He H IH]; cbn [map]; [auto|]. rewrite IH. f_equal. apply He. Qed.
Lemma erase_ret {A} (x : res (A * nat)) a k y : x = Ret (a, k) -> erase x = y -> y = Ret a.
Proof. intros -> <-. reflexivity. Qed.

Lemma scan_pot n w0 dbg todo : forall p es kept p' rs L k,
  scan_state n es p w0 (kept ++ todo) -> Kok es (t_steps (p_trail p)) w0 kept ->
  watch_loop_n dbg w0 todo (p, None) = Ret (((p', rs), L), k) ->
  match rs with
  | None => k + epot p' (map le_ref es) + 2 * apot n p' <= 2 * length todo + epot p (map le_ref es) + 2 * apot n p
  | Some _ => k <= 2 * length todo + epot p (map le_ref es) + 2 * apot n p
  end.
Proof.
  induction todo as [|w todo IH]; intros p es kept p' rs L k HS HK E.
  - inversion E; subst. cbn [length]. lia.
  - cbn [watch_loop_n] in E. apply bindC_ret in E as ([[p1 rs1] act] & k1 & k2 & E1 & E & ->).
    pose proof (watch_body_pot _ _ _ _ _ _ _ _ _ _ _ _ HS E1) as HP.
    pose proof (erase_ret _ _ _ _ E1 (er_watch _ _ _ _)) as E1'.
    destruct (watch_body_ok n es p w0 dbg kept w todo HS HK) as (p2 & es1 & rs2 & act2 & E2 & HE & HX & HQ & Hact).
    rewrite E1' in E2. inversion E2; subst p2 rs2 act2. pose proof (ESR_refs _ _ HE) as HR. cbn [length]. destruct act as [y| |y].
    + destruct Hact as (-> & HS1 & HK1). apply bindC_ret in E as ([[p3 rs3] L3] & k3 & k4 & E3 & E & ->). inversion E; subst.
      replace (kept ++ y :: todo) with ((kept ++ [y]) ++ todo) in HS1 by (rewrite <- app_assoc; reflexivity).
      specialize (IH p1 es1 (kept ++ [y]) _ _ _ _ HS1 HK1 E3). rewrite HR in IH. destruct rs; lia.
    + destruct Hact as (-> & HS1 & HK1). specialize (IH p1 es1 kept _ _ _ _ HS1 HK1 E). rewrite HR in IH. destruct rs; lia.
    + destruct Hact as (HS1 & c & -> & HC). inversion E; subst. lia.
Qed.

Definition adv (p : prop) : prop :=
  p_set_trail p (mkTrail (t_index (p_trail p)) (t_steps (p_trail p)) (t_propagated (p_trail p) + 1) (t_decisions (p_trail p))).

Lemma codes_in n x : vidx x < n -> In x (codes n).
Proof.
  intro H. apply cidx_lt in H. unfold codes. apply in_map_iff. exists (cidx x). unfold cidx in *. split; [lia|]. apply in_seq. lia.
Qed.

Lemma unproc_adv p s x : nth_error (t_steps (p_trail p)) (t_propagated (p_trail p)) = Some s ->
  unproc (adv p) x = unproc p x && negb (x =? neg (s_lit s))%N.
Proof.
  intro E. unfold unproc, adv. cbn [p_set_trail p_trail t_propagated t_steps].
  assert (H : inb (neg x) (slits (firstn (t_propagated (p_trail p) + 1) (t_steps (p_trail p)))) = inb (neg x) (slits (firstn (t_propagated (p_trail p)) (t_steps (p_trail p)))) || (x =? neg (s_lit s))%N).
  { apply eq_true_iff_eq. rewrite orb_true_iff. rewrite N.eqb_eq.
    destruct (nth_error_split _ _ E) as (l1 & l2 & E1 & E2). rewrite E1, <- E2. rewrite !firstn_app, Nat.sub_diag, !firstn_all2 by lia.
    replace (length l1 + 1 - length l1) with 1 by lia. cbn [firstn]. rewrite app_nil_r, map_app. cbn [map].
    assert (IT : forall y ls, inb y ls = true <-> In y ls) by (intros y ls; destruct (inb_spec y ls); split; auto; discriminate).
    rewrite !IT, firstn_all, in_app_iff. cbn [In]. split.
    - intros [G|[G|[]]]; [auto|]. right. rewrite <- (neg_neg x). f_equal. auto.
    - intros [G|G]; auto. right. left. rewrite G, neg_neg. auto. }
  rewrite H. rewrite negb_orb. auto.
Qed.

Lemma long_pot n es p dbg l p' r k : PI n es p -> vidx l < n ->
  In l (slits (t_steps (p_trail p))) -> slev (t_steps (p_trail p)) l = decision_level (p_trail p) ->
  unproc p (neg l) = true -> (exists s, nth_error (t_steps (p_trail p)) (t_propagated (p_trail p)) = Some s /\ s_lit s = l) ->
  propagate_long_clauses_n dbg p l = Ret ((p', r), k) ->
  match r with
  | None => k + epot p' (map le_ref es) + 2 * apot n (adv p') <= epot p (map le_ref es) + 2 * apot n p
  | Some _ => k <= epot p (map le_ref es) + 2 * apot n p
  end.
Proof.
  intros H Hv Hl Hd Hu (s & Es & El) E. unfold propagate_long_clauses_n in E. rewrite lnot_neg in E. set (w0 := neg l) in *.
  assert (H0 : vidx w0 < n) by (unfold w0; rewrite vidx_neg; auto).
  assert (Hw : neg w0 = l) by apply neg_neg.
  unfold watches_take in E. rewrite (pi_en _ _ _ _ H) in E. unfold dassert at 1 in E. cbn [negb] in E. rewrite andb_false_r in E.
  rewrite (vget_nth []) in E by (rewrite (pi_wl _ _ _ _ H); apply cidx_lt; auto). cbn [bind] in E.
  rewrite vset_lt in E by (rewrite (pi_wl _ _ _ _ H); apply cidx_lt; auto). cbn [bind] in E.
  set (bl := ws_by_lit (p_watches p)) in *. set (bl0 := upd bl (cidx w0) []) in *. fold (wfun bl w0) in E.
  apply bindC_ret in E as ([wl ws] & k1 & k2 & E1 & E & ->). apply units_ret in E1 as [E1 ->]. inversion E1; subst wl ws. clear E1.
  set (p1 := p_set_watches p (mkWatches bl0 true)) in *.
  assert (Wbl0 : forall x, wfun bl0 x = if (x =? w0)%N then [] else wfun bl x).
  { intro x. apply (wfun_upd _ _ _ _ n); auto. apply (pi_wl _ _ _ _ H). }
  assert (HS : scan_state n es p1 w0 ([] ++ wfun bl w0)).
  { split; [|split; [auto|split; [|split]]].
    - assert (HW : WF n es (Wk w0 (wfun bl w0) bl0)).
      { eapply WF_ext; [|apply (pi_wf _ _ _ _ H)]. intros x _. unfold Wk. rewrite Wbl0. fold bl. destruct (N.eqb_spec x w0) as [->|]; auto. }
      destruct H. constructor; auto. cbn [p1 p_set_watches p_watches ws_by_lit]. unfold bl0. rewrite upd_length. auto.
    - cbn [p1 p_set_watches p_watches ws_by_lit]. rewrite Wbl0, N.eqb_refl. auto.
    - rewrite Hw. auto.
    - rewrite Hw. auto. }
  assert (HA : length (wfun bl w0) + apot n p1 <= apot n p).
  { apply sum_upd with (c := w0); [apply codes_nodup|apply codes_in; auto| |].
    - intros x _ Ne. change (unproc p1 x) with (unproc p x). cbn [p1 p_set_watches p_watches ws_by_lit]. rewrite Wbl0.
      destruct (N.eqb_spec x w0); [contradiction|auto].
    - change (unproc p1 w0) with (unproc p w0). rewrite Hu. cbn [p1 p_set_watches p_watches ws_by_lit]. rewrite Wbl0, N.eqb_refl. cbn [length]. fold bl. lia. }
  assert (HEp : epot p1 (map le_ref es) = epot p (map le_ref es)) by reflexivity.
  apply bindC_ret in E as ([[p2 rs] L] & k1 & k3 & E2 & E & ->).
  assert (HK0 : Kok es (t_steps (p_trail p1)) w0 []) by (intros y h0 l0 []).
  pose proof (scan_pot n w0 dbg (wfun bl w0) p1 es [] p2 rs L k1 HS HK0 E2) as HP.
  pose proof (erase_ret _ _ _ _ E2 (er_loop _ _ _ _)) as E2'.
  destruct (scan_ok n w0 dbg (wfun bl w0) p1 es [] HS HK0) as (p2' & es2 & rs' & L' & E3 & HE & HX & HQ & HS2 & HR).
  rewrite E2' in E3. inversion E3; subst p2' rs' L'. clear E3.
  apply bindC_ret in E as (ws' & k4 & k5 & E4 & E & ->). apply units_ret in E4 as [E4 ->]. inversion E; subst p' r k5. clear E.
  destruct rs as [c|]; [lia|].
  assert (HB : ws_by_lit ws' = upd (ws_by_lit (p_watches p2)) (cidx w0) L).
  { destruct HS2 as (P2 & _ & W2 & _). unfold watches_restore in E4. rewrite (pi_en _ _ _ _ P2) in E4. unfold dassert at 1 in E4. cbn [negb] in E4. rewrite andb_false_r in E4.
    rewrite (vget_nth []) in E4 by (rewrite (pi_wl _ _ _ _ P2); apply cidx_lt; auto). cbn [bind] in E4.
    fold (wfun (ws_by_lit (p_watches p2)) w0) in E4. rewrite W2 in E4. cbn [length Nat.eqb] in E4. unfold dassert in E4. cbn [negb] in E4. rewrite andb_false_r in E4.
    rewrite vset_lt in E4 by (rewrite (pi_wl _ _ _ _ P2); apply cidx_lt; auto). cbn [bind] in E4. inversion E4; auto. }
  assert (HF : apot n (adv (p_set_watches p2 ws')) <= apot n p2).
  { apply sum_le. intros x _. rewrite (unproc_adv _ s).
    - change (unproc (p_set_watches p2 ws') x) with (unproc p2 x). cbn [adv p_set_trail p_set_watches p_watches]. rewrite HB.
      destruct HS2 as (P2 & _ & W2 & _). rewrite (wfun_upd _ _ _ _ n) by (auto; apply (pi_wl _ _ _ _ P2)).
      rewrite El. fold w0. destruct (N.eqb_spec x w0); cbn [negb]; [rewrite andb_false_r; lia|rewrite andb_true_r; auto].
    - cbn [p_set_watches p_trail]. rewrite HQ. destruct HX as ((ext & Ex & _) & _). rewrite Ex. cbn [p1 p_set_watches p_trail] in *.
      rewrite nth_error_app1; auto. apply nth_error_Some. congruence. }
  change (epot (p_set_watches p2 ws') (map le_ref es)) with (epot p2 (map le_ref es)). lia.
Qed.

(** ** Binary clauses *)
Lemma binary_work dbg cl others : forall p p' r k, binary_loop_n dbg p cl others = Ret ((p', r), k) -> k <= length others.
Proof.
  induction others as [|o rest IH]; intros p p' r k E; cbn [binary_loop_n] in E; [inversion E; subst; auto|].
  apply bindC_ret in E as (t & k1 & k2 & E1 & E & ->). apply units_ret in E1 as [_ ->]. cbn [length]. destruct t; [apply IH in E; lia|].
  apply bindC_ret in E as (f & k1 & k3 & E1 & E & ->). apply units_ret in E1 as [_ ->]. destruct f; [inversion E; subst; lia|].
  apply bindC_ret in E as ([v tr] & k1 & k4 & E1 & E & ->). apply units_ret in E1 as [_ ->]. apply IH in E. lia.
Qed.

(** ** Propagation *)
(** Pending steps assign literals for the first time. *)
Definition FR (p : prop) : Prop := forall i s, t_propagated (p_trail p) <= i -> nth_error (t_steps (p_trail p)) i = Some s ->
  ~ In (s_lit s) (slits (firstn i (t_steps (p_trail p)))).
Definition phi (n : nat) (cs : list nat) (p : prop) : nat := epot p cs + 2 * apot n p + bpot n p.

Lemma nodup_FR p : NoDup (slits (t_steps (p_trail p))) -> FR p.
Proof.
  intros ND i s _ E Hi. apply in_slits in Hi as (j & s' & Ej & Es). rewrite nth_error_firstn in Ej. destruct (Nat.ltb_spec j i) as [L|]; [|discriminate].
  rewrite NoDup_nth_error in ND. assert (j = i); [|lia]. apply ND; [rewrite map_length; apply nth_error_Some; congruence|]. rewrite !nth_error_map, Ej, E. cbn. congruence.
Qed.
Lemma level_FR n p : TR n (p_trail p) -> decision_level (p_trail p) <> 0 -> FR p.
Proof.
  intros HT Hd i s Hq E Hi. apply in_slits in Hi as (j & s' & Ej & Es). rewrite nth_error_firstn in Ej. destruct (Nat.ltb_spec j i) as [L|]; [|discriminate].
  destruct (tr_dup _ _ HT j i s' s L Ej E Es) as ((_ & L0) & _). rewrite (tr_lev _ _ HT _ _ E) in L0. rewrite (tr_dl _ _ HT) in Hd.
  destruct (tl (t_decisions (p_trail p))) as [|d ds] eqn:Ed; [cbn in Hd; lia|]. destruct (tr_ds _ _ HT d) as [_ D]; [rewrite Ed; left; auto|].
  unfold lvl in L0. cbn [filter] in L0. destruct (Nat.leb_spec d i); [cbn in L0; lia|lia].
Qed.
Lemma FR_ext n p p' : FR p -> TR n (p_trail p) -> TR n (p_trail p') -> pext p p' -> t_propagated (p_trail p) <= t_propagated (p_trail p') -> FR p'.
Proof.
  intros H HT HT' ((ext & Ex & Fx) & _) Hq i s Hi E Hin. destruct (Nat.lt_ge_cases i (length (t_steps (p_trail p)))) as [L|L].
  - rewrite Ex in E, Hin. rewrite nth_error_app1 in E by auto. rewrite firstn_app in Hin. replace (i - length (t_steps (p_trail p))) with 0 in Hin by lia.
    cbn [firstn] in Hin. rewrite app_nil_r in Hin. eapply H; [|eauto|eauto]. lia.
  - apply in_slits in Hin as (j & s' & Ej & Es). rewrite nth_error_firstn in Ej. destruct (Nat.ltb_spec j i) as [Lj|]; [|discriminate].
    destruct (tr_dup _ _ HT' j i s' s Lj Ej E Es) as (_ & (_ & R)). rewrite Ex, nth_error_app2 in E by auto. rewrite Forall_forall in Fx.
    destruct (Fx s) as [F1 _]; [eapply nth_error_In; eauto|]. contradiction.
Qed.

Lemma literal_pot n es p dbg s p' r k : PI n es p -> FR p -> nth_error (t_steps (p_trail p)) (t_propagated (p_trail p)) = Some s ->
  propagate_literal_n dbg p (s_lit s) = Ret ((p', r), k) ->
  match r with
  | None => k + phi n (map le_ref es) (adv p') <= phi n (map le_ref es) p
  | Some _ => k <= phi n (map le_ref es) p
  end.
Proof.
  intros H HF Es E. pose proof (pi_tr _ _ _ _ H) as HT. set (l := s_lit s) in *.
  assert (Hl : In l (slits (t_steps (p_trail p)))) by (apply in_slits; eauto).
  assert (Hv : vidx l < n) by (apply (VR_range _ _ _ _ (pi_vr _ _ _ _ H)); auto).
  assert (Hd : slev (t_steps (p_trail p)) l = decision_level (p_trail p)).
  { unfold l. rewrite (tr_slev n _ HT _ _ Es). eapply tr_lev_last; eauto. }
  assert (Hu : unproc p (neg l) = true).
  { unfold unproc. rewrite neg_neg. destruct (inb_spec l (slits (firstn (t_propagated (p_trail p)) (t_steps (p_trail p))))) as [I|]; auto.
    exfalso. eapply HF; [|exact Es|exact I]. auto. }
  unfold propagate_literal_n in E. apply bindC_ret in E as ([p1 r1] & k1 & k2 & E1 & E & ->).
  unfold propagate_binary_clauses_n in E1. rewrite lnot_neg in E1. unfold bin_containing in E1. rewrite (vget_nth []) in E1.
  2:{ rewrite (bi_len _ _ (pi_bi _ _ _ _ H)). apply cidx_lt. rewrite vidx_neg; auto. }
  fold (bin (p_binary p) (neg l)) in E1.
  apply bindC_ret in E1 as (others & k3 & k4 & E2 & E1 & ->). apply units_ret in E2 as [E2 ->]. inversion E2; subst others. clear E2. cbn [Nat.add].
  pose proof (binary_work _ _ _ _ _ _ _ E1) as HW. pose proof (erase_ret _ _ _ _ E1 (er_binary _ _ _ _)) as E1'.
  destruct (binary_loop_ok (wfun (ws_by_lit (p_watches p))) n es dbg (neg l) (bin (p_binary p) (neg l)) p H) as (p1' & r1' & E3 & H1 & X1 & Q1 & L1 & W1 & R1).
  { rewrite vidx_neg; auto. }
  { auto. }
  { rewrite neg_neg; auto. }
  { rewrite neg_neg; auto. }
  rewrite E1' in E3. inversion E3; subst p1' r1'. clear E3.
  assert (HB : forall q, p_binary q = p_binary p -> (forall x, unproc q x = unproc p x && negb (x =? neg l)%N) -> length (bin (p_binary p) (neg l)) + bpot n q <= bpot n p).
  { intros q Eb Hq. apply sum_upd with (c := neg l); [apply codes_nodup|apply codes_in; rewrite vidx_neg; auto| |].
    - intros x _ Ne. rewrite Hq, Eb. destruct (N.eqb_spec x (neg l)); [contradiction|]. rewrite andb_true_r. auto.
    - rewrite Hq, Hu, N.eqb_refl. cbn [negb andb]. lia. }
  assert (HB0 : length (bin (p_binary p) (neg l)) <= bpot n p).
  { pose proof (HB (adv p) eq_refl (fun x => unproc_adv p s x Es)). lia. }
  destruct r1 as [c|]; [inversion E; subst; unfold phi; lia|].
  assert (H1' : PI n es p1) by (unfold PI; rewrite W1; exact H1).
  pose proof X1 as ((ext & Ex & Fx) & Xd & Xu & Xb).
  assert (HU1 : forall x, unproc p1 x = unproc p x).
  { intro x. eapply unproc_ext; eauto. apply (tr_q _ _ HT). }
  assert (He : epot p1 (map le_ref es) <= epot p (map le_ref es)).
  { eapply epot_le; [apply (pi_lr _ _ _ _ H)|apply (pi_lr _ _ _ _ H1)|auto|]. intros c h cl Hi. exists h, cl. split; auto. apply clp_mono.
    rewrite Ex, map_app. apply incl_appl, incl_refl. }
  assert (Ha : apot n p1 = apot n p) by (apply apot_same; [auto|rewrite W1; auto]).
  assert (Es1 : nth_error (t_steps (p_trail p1)) (t_propagated (p_trail p1)) = Some s).
  { rewrite Q1, Ex. rewrite nth_error_app1; auto. apply nth_error_Some. congruence. }
  assert (Hl1 : In l (slits (t_steps (p_trail p1)))) by (eapply pext_in; eauto).
  assert (Hd1 : slev (t_steps (p_trail p1)) l = decision_level (p_trail p1)) by (rewrite (pext_slev p), (pext_dl p); auto).
  pose proof (long_pot n es p1 dbg l p' r k2 H1' Hv Hl1 Hd1 ltac:(rewrite HU1; auto) ltac:(eauto) E) as HP.
  destruct r as [c|]; [unfold phi; lia|].
  pose proof (erase_ret _ _ _ _ E (er_long _ _ _)) as E'.
  destruct (propagate_long_ok n es p1 dbg l H1' Hv Hl1 Hd1) as (p2 & es2 & r2 & E2 & H2 & HE2 & X2 & Q2 & R2).
  rewrite E' in E2. inversion E2; subst p2 r2. pose proof X2 as ((ext2 & Ex2 & Fx2) & Xd2 & Xu2 & Xb2).
  assert (Es2 : nth_error (t_steps (p_trail p')) (t_propagated (p_trail p')) = Some s).
  { rewrite Q2, Ex2. rewrite nth_error_app1; auto. apply nth_error_Some. congruence. }
  assert (HU2 : forall x, unproc (adv p') x = unproc p x && negb (x =? neg l)%N).
  { intro x. rewrite (unproc_adv _ s) by auto. f_equal. rewrite <- HU1. eapply unproc_ext; eauto. apply (tr_q _ _ (pi_tr _ _ _ _ H1')). }
  pose proof (HB (adv p') ltac:(cbn [adv p_set_trail p_binary]; congruence) HU2) as HBn.
  unfold phi. change (epot (adv p') (map le_ref es)) with (epot p' (map le_ref es)). lia.
Qed.

Lemma ploop_pot n dbg fuel : forall p es p' r k, PI n es p -> FR p -> propagate_loop_n fuel dbg p = Ret ((p', r), k) ->
  match r with
  | None => k + phi n (map le_ref es) p' <= phi n (map le_ref es) p /\ FR p'
  | Some _ => k <= phi n (map le_ref es) p
  end.
Proof.
  induction fuel as [|f IH]; intros p es p' r k H HF E; [discriminate|]. cbn [propagate_loop_n] in E. unfold next_unpropagated_lit in E.
  destruct (nth_error (t_steps (p_trail p)) (t_propagated (p_trail p))) as [s|] eqn:Es; cbn [option_map] in E; [|inversion E; subst; split; [lia|auto]].
  pose proof (pi_tr _ _ _ _ H) as HT.
  apply bindC_ret in E as ([p1 r1] & k1 & k2 & E1 & E & ->).
  pose proof (literal_pot n es p dbg s p1 r1 k1 H HF Es E1) as HP. destruct r1 as [c|]; [inversion E; subst; lia|].
  pose proof (erase_ret _ _ _ _ E1 (er_literal _ _ _)) as E1'.
  assert (Hsl : In (s_lit s) (slits (t_steps (p_trail p)))) by (apply in_slits; eauto).
  assert (Hv : vidx (s_lit s) < n) by (apply (VR_range _ _ _ _ (pi_vr _ _ _ _ H)); auto).
  destruct (propagate_literal_ok n es p dbg (s_lit s) H Hv Hsl) as (p2 & es1 & r2 & E2 & H1 & HE1 & X1 & Q1 & R1).
  { rewrite (tr_slev n _ HT _ _ Es). eapply tr_lev_last; eauto. }
  rewrite E1' in E2. inversion E2; subst p2 r2. clear E2.
  assert (Es1 : nth_error (t_steps (p_trail p1)) (t_propagated (p_trail p1)) = Some s).
  { rewrite Q1. destruct X1 as ((ext & Ex & _) & _). rewrite Ex. rewrite nth_error_app1; auto. apply nth_error_Some. congruence. }
  unfold advance_propagated in E. rewrite (proj2 (Nat.ltb_lt _ _)) in E by (apply nth_error_Some; congruence).
  unfold dassert in E. cbn [negb] in E. rewrite andb_false_r in E.
  apply bindC_ret in E as (t & k3 & k4 & E3 & E & ->). apply units_ret in E3 as [E3 ->]. inversion E3; subst t. clear E3.
  change (p_set_trail p1 _) with (adv p1) in E.
  assert (H2 : PI n es1 (adv p1)) by (apply (PI_advance n es1 p1 s); auto).
  assert (HF2 : FR (adv p1)).
  { apply (FR_ext n p); [exact HF|exact HT|apply (pi_tr _ _ _ _ H2)|exact X1|]. unfold adv, p_set_trail; cbn [p_trail t_propagated]. lia. }
  pose proof (IH _ _ _ _ _ H2 HF2 E) as HI. rewrite (ESR_refs _ _ HE1) in HI. destruct r; [lia|]. destruct HI; split; [lia|auto].
Qed.

(** A decision. *)
Lemma decide_pot n es p l v : PI n es p -> phi n (map le_ref es) (p_set_vt p v (t_decide (p_trail p) l)) <= phi n (map le_ref es) p.
Proof.
  intro H. set (p' := p_set_vt p v (t_decide (p_trail p) l)).
  assert (HU : forall x, unproc p' x = unproc p x).
  { intro x. eapply unproc_ext; [apply (tr_q _ _ (pi_tr _ _ _ _ H))|reflexivity|reflexivity]. }
  assert (He : epot p' (map le_ref es) <= epot p (map le_ref es)).
  { eapply epot_le; [apply (pi_lr _ _ _ _ H)|apply (pi_lr _ _ _ _ H)|auto|]. intros c h cl Hi. exists h, cl. split; auto. apply clp_mono.
    cbn [p' p_set_vt p_trail t_decide t_steps]. rewrite map_app. apply incl_appl, incl_refl. }
  assert (Ha : apot n p' = apot n p) by (apply apot_same; [auto|reflexivity]).
  assert (Hb : bpot n p' = bpot n p) by (unfold bpot; f_equal; apply map_ext; intro x; rewrite HU; reflexivity).
  unfold phi. lia.
Qed.

(** ** The bound *)
Lemma sum_nth (f : nat -> nat) (ls : list nat) m : m = length ls -> (forall i, f i <= nth i ls 0) -> list_sum (map f (seq 0 m)) <= list_sum ls.
Proof.
  intros -> H. revert f H. induction ls as [|x ls IH]; intros f H; [cbn; lia|]. cbn [length seq map list_sum fold_right].
  fold (list_sum ls). rewrite <- seq_shift, map_map. specialize (IH (fun i => f (S i)) (fun i => H (S i))). specialize (H 0). cbn [nth] in H.
  unfold list_sum in IH at 1. fold (list_sum ls) in IH. lia.
Qed.
Lemma lists_sum {A} n (bl : list (list A)) (g : N -> bool) : length bl = 2 * n ->
  list_sum (map (fun x => if g x then length (nth (cidx x) bl []) else 0) (codes n)) <= list_sum (map (@length A) bl).
Proof.
  intro L. unfold codes. rewrite map_map. apply sum_nth; [rewrite map_length; lia|]. intro i. unfold cidx. rewrite Nat2N.id.
  destruct (g (N.of_nat i)); [|lia]. change (length (nth i bl []) <= nth i (map (@length A) bl) (length (@nil A))). rewrite map_nth. auto.
Qed.
Lemma phi_bound n es p : PI n es p -> phi n (map le_ref es) p <=
  4 * list_sum (map (fun e => length (le_lits e)) es) + 2 * list_sum (map (@length watch) (ws_by_lit (p_watches p))) + list_sum (map (@length N) (p_binary p)).
Proof.
  intro H. unfold phi.
  assert (He : epot p (map le_ref es) <= 4 * list_sum (map (fun e => length (le_lits e)) es)).
  { unfold epot. rewrite map_map. assert (G : forall l, (forall e, In e l -> In e es) -> list_sum (map (fun e => cpot p (le_ref e)) l) <= 4 * list_sum (map (fun e => length (le_lits e)) l)); [|apply G; auto].
    induction l as [|[[c h] ls] l IH]; intro Hs; [cbn; lia|]. cbn [map list_sum fold_right]. specialize (IH (fun e He => Hs e (or_intror He))). unfold list_sum in IH.
    unfold le_ref, le_lits in *. cbn [fst snd] in *. rewrite (cpot_in _ _ _ _ _ (pi_lr _ _ _ _ H) (Hs _ (or_introl eq_refl))).
    pose proof (clp_le (slits (t_steps (p_trail p))) h ls). lia. }
  pose proof (lists_sum n _ (unproc p) (pi_wl _ _ _ _ H)) as Ha. pose proof (lists_sum n _ (unproc p) (bi_len _ _ (pi_bi _ _ _ _ H))) as Hb.
  unfold apot, bpot, wfun, bin. lia.
Qed.
