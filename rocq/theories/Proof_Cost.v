(** The work of clause minimization. *)
From Coq Require Import NArith List Bool Arith Lia Permutation Sorted.
From Verif Require Import Model_Base Model_Lit Model_PartialAssignment Model_Header Model_Arena Model_Prop
  Model_Heap Model_Vsids Model_Analysis Model_Cost Proof_Base.
Import ListNotations.

(** ** The counter does not change results *)
Definition erase {A} (x : res (A * nat)) : res A := let* (a, _) := x in Ret a.
Lemma er_bind {A B} (x : res (A * nat)) x' (f : A -> res (B * nat)) f' :
  erase x = x' -> (forall a, erase (f a) = f' a) -> erase (bindC x f) = bind x' f'.
Proof.
  intros <- Hf. destruct x as [[a k]| |]; auto. unfold bindC, erase at 2. cbn [bind]. rewrite <- Hf. destruct (f a) as [[b k']| |]; auto.
Qed.
Lemma er_units {A} k (x : res A) : erase (units k x) = x.
Proof. destruct x; auto. Qed.
Lemma er_fold {A S} (f : S -> A -> res (S * nat)) g l : (forall s a, erase (f s a) = g s a) -> forall s, erase (foldC f l s) = foldM g l s.
Proof. intro H. induction l as [|a r IH]; intro s; [reflexivity|]. cbn [foldC foldM]. apply er_bind; auto. Qed.
Lemma er_lookahead m t ls : forall b, erase (lookahead_n m t ls b) = lookahead m t ls b.
Proof.
  induction ls as [|l r IH]; intro b; [reflexivity|]. cbn [lookahead_n lookahead]. apply er_bind; [apply er_units|]. intro i.
  apply er_bind; [apply er_units|]. intros [[|]|]; auto.
Qed.
Lemma er_poison m st : erase (poison_stack_n m st) = poison_stack m st.
Proof. apply er_fold. intros. apply er_units. Qed.
Lemma er_iter p fuel : forall m top st, erase (redundant_iter_n fuel m p top st) = redundant_iter fuel m p top st.
Proof.
  induction fuel as [|f IH]; intros m [ti ls] st; [reflexivity|]. cbn [redundant_iter_n redundant_iter]. destruct ls as [|l rest].
  - apply er_bind; [apply er_units|]. intro m1. destruct (rev st); auto.
  - apply er_bind; [apply er_units|]. intro i. apply er_bind; [apply er_units|]. intros [[|]|]; auto.
    + apply er_bind; [apply er_units|]. intro m1. apply er_bind; [apply er_poison|]. auto.
    + apply er_bind; [apply er_units|]. intro s. apply er_bind; [apply er_units|]. intro rl. apply er_bind; [apply er_lookahead|]. intros [[|]|]; auto.
      * apply er_bind; [apply er_units|]. auto.
      * apply er_bind; [apply er_units|]. intro m1. apply er_bind; [apply er_units|]. intro m2. apply er_bind; [apply er_poison|]. auto.
Qed.
Lemma er_rec p fuel : forall m i depth, erase (redundant_rec_n fuel m i p depth) = redundant_rec fuel m i p depth.
Proof.
  induction fuel as [|f IH]; intros m i depth; [reflexivity|]. cbn [redundant_rec_n redundant_rec].
  apply er_bind; [apply er_units|]. intro s. apply er_bind; [apply er_units|]. intro rl. apply er_bind; [apply er_lookahead|]. intros [[|]|].
  - apply er_bind; [apply er_units|]. auto.
  - destruct (Nat.ltb MAX_DEPTH depth); [apply er_iter|].
    revert m. generalize rl. intro ls. induction ls as [|l r IHl]; intro m.
    + apply er_bind; [apply er_units|]. auto.
    + apply er_bind; [apply er_units|]. intro j. apply er_bind; [apply er_units|]. intro c. apply er_bind; [destruct c; auto|].
      intros [b m1]. destruct b; auto. apply er_bind; [apply er_units|]. auto.
  - apply er_bind; [apply er_units|]. auto.
Qed.
Lemma er_retain p st l : erase (retain_body_n p st l) = retain_body p st l.
Proof.
  destruct st as [m kept]. unfold retain_body_n, retain_body. apply er_bind; [apply er_units|]. intro i. apply er_bind; [apply er_units|]. intro s.
  apply er_bind; [apply er_units|]. intro f. apply er_bind.
  - destruct (first_gt f i).
    + apply er_bind; [apply er_units|]. auto.
    + apply er_bind; [apply er_rec|]. intros [r m1]. auto.
  - intros [r m1]. apply er_bind; [apply er_units|]. auto.
Qed.
Lemma er_minimize m cl p : erase (minimize_n m cl p) = minimize m cl p.
Proof.
  unfold minimize_n, minimize. apply er_bind; [apply er_units|]. intro f2. apply er_bind; [apply er_units|]. intro so.
  destruct (rev so) as [|u r]; [reflexivity|]. apply er_bind; [apply er_fold, er_retain|]. intros [m1 kept].
  apply er_bind; [apply er_fold; intros; apply er_units|]. intro c2. apply er_bind; [apply er_fold; intros; apply er_units|]. intro f3.
  apply er_bind; [apply er_units|]. intro l1. apply er_bind; [apply er_units|]. auto.
Qed.
Lemma er_derived an p : erase (minimize_derived_clause_n an p) = minimize_derived_clause an p.
Proof.
  unfold minimize_derived_clause_n, minimize_derived_clause. destruct (Nat.ltb _ _); auto. apply er_bind; [apply er_minimize|]. intros [[l c] m]. auto.
Qed.

(** ** The bound *)
Lemma bindC_ret {A B} (x : res (A * nat)) (f : A -> res (B * nat)) b k : bindC x f = Ret (b, k) ->
  exists a k1 k2, x = Ret (a, k1) /\ f a = Ret (b, k2) /\ k = k1 + k2.
Proof.
  unfold bindC. destruct x as [[a k1]| |]; try discriminate. cbn [bind]. destruct (f a) as [[b' k2]| |] eqn:Ef; try discriminate. cbn [bind].
  intro E. inversion E; subst. exists a, k1, k2. auto.
Qed.
Lemma units_ret {A} j (x : res A) a k : units j x = Ret (a, k) -> x = Ret a /\ k = j.
Proof. unfold units. destruct x; try discriminate. cbn [bind]. intro E. inversion E; auto. Qed.

Section Cost.
Variable p : prop.
Notation t := (p_trail p).
Notation ss := (t_steps t).
Definition rlen (i : nat) : nat :=
  match nth_error ss i with
  | Some s => match reason_lits (p_long p) (s_reason s) with Ret ls => length ls | _ => 0 end
  | None => 0
  end.
Definition wt (i : nat) : nat := 2 * rlen i + 1.
Hypothesis acyclic : forall i s rl l j, nth_error ss i = Some s -> reason_lits (p_long p) (s_reason s) = Ret rl ->
  In l rl -> trail_index t l = Ret j -> j < i.

Notation cache := (list (option bool)).
Definition open (c : cache) (i : nat) : bool := match nth_error c i with Some None => true | _ => false end.
Fixpoint phi (c : cache) (R : nat) : nat :=
  match R with O => 0 | S r => phi c r + if open c r then wt r else 0 end.
Fixpoint wsum (R : nat) : nat := match R with O => 0 | S r => wsum r + wt r end.
Lemma phi_wsum c R : phi c R <= wsum R.
Proof. induction R; cbn; [lia|]. destruct (open c R); lia. Qed.

(** Entries at or above [R] are as before, no entry is removed, and the list of
    entries to clean has grown by at most [k]. *)
Record ext (R : nat) (m m' : minim) (k : nat) : Prop := {
  ex_same : forall i, R <= i -> nth_error (mi_cache m') i = nth_error (mi_cache m) i;
  ex_open : forall i, open (mi_cache m) i = false -> open (mi_cache m') i = false;
  ex_clean : length (mi_clean m') <= length (mi_clean m) + k }.
Lemma ext_refl R m : ext R m m 0.
Proof. constructor; auto. lia. Qed.
Lemma ext_trans R m1 m2 m3 k1 k2 : ext R m1 m2 k1 -> ext R m2 m3 k2 -> ext R m1 m3 (k1 + k2).
Proof. intros [A1 A2 A3] [B1 B2 B3]. constructor; [intros; rewrite B1, A1 by auto; auto|auto|lia]. Qed.
Lemma ext_weak R R' m m' k k' : ext R m m' k -> R <= R' -> k <= k' -> ext R' m m' k'.
Proof. intros [A1 A2 A3] H H'. constructor; [intros; apply A1; lia|auto|lia]. Qed.

Lemma phi_mono R m m' k Q : ext R m m' k -> phi (mi_cache m') Q <= phi (mi_cache m) Q.
Proof.
  intros [_ H _]. induction Q as [|q IH]; cbn; [lia|]. specialize (H q). destruct (open (mi_cache m) q); [|rewrite H by auto; lia].
  destruct (open (mi_cache m') q); lia.
Qed.
Lemma phi_split R m m' k Q : ext R m m' k -> R <= Q -> phi (mi_cache m') Q + phi (mi_cache m) R = phi (mi_cache m) Q + phi (mi_cache m') R.
Proof.
  intros [H _ _] L. induction L as [|q L IH]; [lia|]. cbn [phi]. unfold open. rewrite H by auto. lia.
Qed.
Lemma phi_open c i R : open c i = true -> i < R -> wt i <= phi c R.
Proof. intros H L. induction L as [|q L IH]; cbn [phi]; [rewrite H; lia|lia]. Qed.

Lemma set_ext m i b m' k : cache_set_n m i b = Ret (m', k) ->
  k = 1 /\ ext (S i) m m' 1 /\ open (mi_cache m') i = false /\ (forall j, j <> i -> open (mi_cache m') j = open (mi_cache m) j).
Proof.
  intro E. apply units_ret in E as [E ->]. unfold cache_set in E. destruct (vset (mi_cache m) i (Some b)) as [c| |] eqn:Ec; try discriminate.
  cbn [bind] in E. inversion E; subst. apply vset_ok in Ec as [Hi ->]. split; auto. split; [constructor|split]; cbn [mi_cache mi_clean].
  - intros j Hj. apply upd_other. lia.
  - intros j. unfold open. destruct (Nat.eq_dec i j) as [<-|N]; [rewrite upd_same by auto; auto|rewrite upd_other by auto; auto].
  - rewrite app_length. cbn. lia.
  - unfold open. rewrite upd_same by auto. auto.
  - intros j N. unfold open. rewrite upd_other by auto. auto.
Qed.
Lemma phi_set m i b m' k R : cache_set_n m i b = Ret (m', k) ->
  phi (mi_cache m') R + (if (i <? R) && open (mi_cache m) i then wt i else 0) = phi (mi_cache m) R.
Proof.
  intro E. destruct (set_ext _ _ _ _ _ E) as (_ & _ & H1 & H2). induction R as [|r IH]; [reflexivity|]. cbn [phi].
  destruct (Nat.eq_dec r i) as [->|N].
  - rewrite H1. destruct (Nat.ltb_spec i i); [lia|]. destruct (Nat.ltb_spec i (S i)); [|lia]. cbn [andb] in *. destruct (open (mi_cache m) i); lia.
  - rewrite H2 by auto. destruct (Nat.ltb_spec i r), (Nat.ltb_spec i (S r)); try lia.
Qed.

Lemma cached_cost m i r k : cached_n m i t = Ret (r, k) -> k = 1 /\ (r = None -> open (mi_cache m) i = true).
Proof.
  intro E. apply units_ret in E as [E ->]. split; auto. intros ->. unfold redundant_cached in E. unfold vget in E at 1.
  unfold open. destruct (nth_error (mi_cache m) i) as [[b|]|]; try discriminate. auto.
Qed.
Lemma lookahead_cost m ls : forall b r k, lookahead_n m t ls b = Ret (r, k) -> k <= length ls.
Proof.
  induction ls as [|l rest IH]; intros b r k E; cbn [lookahead_n length] in *; [inversion E; lia|].
  apply bindC_ret in E as (i & k1 & k2 & E1 & E & ->). apply units_ret in E1 as [_ ->].
  apply bindC_ret in E as (c & k3 & k4 & E3 & E & ->). apply cached_cost in E3 as [-> _].
  destruct c as [[|]|]; [apply IH in E| inversion E |apply IH in E]; lia.
Qed.

(** *** The search with an explicit stack *)
Definition cw (conf : list (nat * list N)) : nat := fold_right (fun e k => wt (fst e) + k) 0 conf.
Definition cl (conf : list (nat * list N)) : nat := fold_right (fun e k => S (length (snd e)) + k) 0 conf.
Lemma cw_app a b : cw (a ++ b) = cw a + cw b.
Proof. unfold cw. induction a; cbn [app fold_right]; lia. Qed.
Lemma cl_app a b : cl (a ++ b) = cl a + cl b.
Proof. unfold cl. induction a; cbn [app fold_right]; lia. Qed.
Lemma cl_length a : length a <= cl a.
Proof. unfold cl. induction a; cbn [length fold_right]; lia. Qed.
Definition entry (R : nat) (m : minim) (e : nat * list N) : Prop :=
  open (mi_cache m) (fst e) = true /\ fst e < R /\
  exists s rl, nth_error ss (fst e) = Some s /\ reason_lits (p_long p) (s_reason s) = Ret rl /\ incl (snd e) rl.

Lemma poison_cost R st : forall m m' k, poison_stack_n m st = Ret (m', k) -> NoDup (map fst st) ->
  Forall (entry R m) st ->
  k = length st /\ ext R m m' k /\ phi (mi_cache m') R + cw st = phi (mi_cache m) R.
Proof.
  induction st as [|[i ls] st IH]; intros m m' k E ND HE; unfold poison_stack_n in *; cbn [foldC] in E.
  - inversion E; subst. split; auto. split; [apply ext_refl|cbn; lia].
  - apply bindC_ret in E as (m1 & k1 & k2 & E1 & E & ->). cbn [fst] in E1. destruct (set_ext _ _ _ _ _ E1) as (-> & X & O1 & O2).
    pose proof (phi_set _ _ _ _ _ R E1) as P. inversion HE as [|? ? [H1 [H2 _]] HE']; subst. cbn [fst] in *. rewrite H1 in P.
    destruct (Nat.ltb_spec i R); [|lia]. cbn [andb] in P. cbn [map] in ND. inversion ND as [|? ? N1 N2]; subst.
    destruct (IH m1 m' k2 E N2) as (-> & X2 & P2).
    { rewrite Forall_forall in *. intros e He. destruct (HE' e He) as [A B]. split; auto. rewrite O2; auto. intros <-. apply N1, in_map; auto. }
    split; [reflexivity|]. split; [|cbn [cw fold_right fst]; fold (cw st); lia].
    eapply ext_weak; [eapply ext_trans; [eapply ext_weak; [exact X|exact H2|apply le_n]|exact X2]|lia|lia].
Qed.

Lemma sorted_nodup l : StronglySorted gt l -> NoDup l.
Proof. induction 1 as [|a l S IH F]; constructor; auto. intro H. rewrite Forall_forall in F. specialize (F a H). lia. Qed.
Lemma sorted_snoc l a b : StronglySorted gt (l ++ [a]) -> b < a -> StronglySorted gt ((l ++ [a]) ++ [b]).
Proof.
  induction l as [|x l IH]; cbn [app]; intros H L.
  - constructor; [constructor; [constructor|constructor]|constructor; [lia|constructor]].
  - inversion H as [|? ? H1 H2]; subst. constructor; [auto|]. rewrite Forall_app in *. destruct H2 as [H2 H3]. split; [rewrite Forall_app; auto|].
    inversion H3; subst. constructor; [lia|constructor].
Qed.
Lemma sorted_init l a : StronglySorted gt (l ++ [a]) -> StronglySorted gt l.
Proof.
  induction l as [|x l IH]; cbn [app]; intro H; [constructor|]. inversion H; subst. constructor; auto.
  match goal with F : Forall _ (l ++ [a]) |- _ => apply Forall_app in F; apply F end.
Qed.
Lemma sorted_last l a x : StronglySorted gt (l ++ [a]) -> In x l -> a < x.
Proof.
  induction l as [|y l IH]; cbn [app In]; [tauto|]. intros H [->|Hx]; inversion H; subst; auto.
  match goal with F : Forall _ (l ++ [a]) |- _ => apply Forall_app in F as [_ F]; inversion F; subst end. lia.
Qed.

Lemma iter_cost R fuel : forall m top st b m' k, redundant_iter_n fuel m p top st = Ret ((b, m'), k) ->
  StronglySorted gt (map fst (st ++ [top])) -> Forall (entry R m) (st ++ [top]) ->
  ext R m m' k /\ k + phi (mi_cache m') R + cw (st ++ [top]) <= phi (mi_cache m) R + cl (st ++ [top]).
Proof.
  induction fuel as [|f IH]; intros m [ti ls] st b m' k E SO HE; [discriminate|]. cbn [redundant_iter_n] in E.
  assert (ND : NoDup (map fst (st ++ [(ti, ls)]))) by (apply sorted_nodup; auto).
  pose proof HE as HE0. apply Forall_app in HE0 as [HEs HEt]. inversion HEt as [|? ? Ht _]; subst. destruct Ht as (T1 & T2 & s0 & rl0 & T3 & T4 & T5). cbn [fst snd] in *.
  assert (NI : ~ In ti (map fst st)). { rewrite map_app in ND. cbn in ND. apply NoDup_remove_2 in ND. rewrite app_nil_r in ND. auto. }
  assert (NDs : NoDup (map fst st)) by (rewrite map_app in SO; apply sorted_nodup, (sorted_init _ ti); exact SO).
  (* setting the top entry leaves the rest as it is *)
  assert (KE : forall v m1 k1, cache_set_n m ti v = Ret (m1, k1) -> Forall (entry R m1) st).
  { intros v m1 k1 E1. destruct (set_ext _ _ _ _ _ E1) as (_ & _ & _ & O2). rewrite Forall_forall in *. intros e He. destruct (HEs e He) as [A B].
    split; auto. rewrite O2; auto. intros Q. apply NI. rewrite <- Q. apply in_map; auto. }
  destruct ls as [|l rest].
  - apply bindC_ret in E as (m1 & k1 & k2 & E1 & E & ->). pose proof (KE _ _ _ E1) as KE1. destruct (set_ext _ _ _ _ _ E1) as (-> & X & O1 & O2).
    pose proof (phi_set _ _ _ _ _ R E1) as P. rewrite T1 in P. destruct (Nat.ltb_spec ti R); [|lia]. cbn [andb] in P.
    rewrite cw_app, cl_app. cbn [cw cl fold_right fst snd length].
    destruct st as [|top2 st2] using rev_ind.
    + cbn [rev] in E. inversion E; subst. split; [eapply ext_weak; [exact X|lia|lia]|]. cbn [cw cl fold_right]. lia.
    + clear IHst2. rewrite rev_app_distr in E. cbn [rev app] in E. rewrite removelast_last in E.
      destruct (IH _ _ _ _ _ _ E) as [X2 P2]; [|exact KE1|].
      { rewrite map_app in SO. apply sorted_init in SO. exact SO. }
      split; [eapply ext_weak; [eapply ext_trans; [eapply ext_weak; [exact X|exact T2|apply le_n]|exact X2]|lia|lia]|]. lia.
  - apply bindC_ret in E as (i & k1 & k2 & E1 & E & ->). apply units_ret in E1 as [E1 ->].
    apply bindC_ret in E as (c & k3 & k4 & E3 & E & ->). apply cached_cost in E3 as [-> HO].
    assert (Hi : i < ti) by (eapply acyclic; eauto; apply T5; left; auto).
    rewrite cw_app, cl_app. cbn [cw cl fold_right fst snd length].
    assert (He' : Forall (entry R m) (st ++ [(ti, rest)])).
    { apply Forall_app. split; auto. constructor; [|constructor]. split; auto. split; auto. exists s0, rl0. split; auto. split; auto. intros z Hz. apply T5. right; auto. }
    assert (SO' : StronglySorted gt (map fst (st ++ [(ti, rest)]))) by (rewrite map_app in *; exact SO).
    destruct c as [[|]|].
    + destruct (IH _ _ _ _ _ _ E SO' He') as [X2 P2]. rewrite cw_app, cl_app in P2. cbn [cw cl fold_right fst snd length] in P2.
      split; [eapply ext_weak; [exact X2|lia|lia]|lia].
    + apply bindC_ret in E as (m1 & k5 & k6 & E5 & E & ->). apply bindC_ret in E as (m2 & k7 & k8 & E7 & E & ->). inversion E; subst.
      pose proof (KE _ _ _ E5) as KE1. destruct (set_ext _ _ _ _ _ E5) as (-> & X & O1 & O2). pose proof (phi_set _ _ _ _ _ R E5) as P.
      rewrite T1 in P. destruct (Nat.ltb_spec ti R); [|lia]. cbn [andb] in P.
      destruct (poison_cost R _ _ _ _ E7 NDs KE1) as (-> & X2 & P2). pose proof (cl_length st).
      split; [eapply ext_weak; [eapply ext_trans; [eapply ext_weak; [exact X|exact T2|apply le_n]|exact X2]|lia|lia]|]. fold (cw st) (cl st) in *. lia.
    + specialize (HO eq_refl). apply bindC_ret in E as (s & k5 & k6 & E5 & E & ->). apply units_ret in E5 as [E5 ->]. apply vget_ok in E5.
      apply bindC_ret in E as (rl & k7 & k8 & E7 & E & ->). apply units_ret in E7 as [E7 ->].
      apply bindC_ret in E as (la & k9 & k10 & E9 & E & ->). apply lookahead_cost in E9.
      assert (Hw : wt i = 2 * length rl + 1) by (unfold wt, rlen; rewrite E5, E7; auto).
      assert (Nst : ~ In i (map fst st)). { intro Q. rewrite map_app in SO. cbn [map fst] in SO. pose proof (sorted_last _ _ _ SO Q). lia. }
      assert (KE2 : forall v m1 k1, cache_set_n m i v = Ret (m1, k1) -> Forall (entry R m1) (st ++ [(ti, rest)])).
      { intros v m1 k1 E2. destruct (set_ext _ _ _ _ _ E2) as (_ & _ & _ & O2). rewrite Forall_forall in *. intros e He. destruct (He' e He) as [A B].
        split; auto. rewrite O2; auto. intros Q. apply in_app_or in He as [He|[<-|[]]]; [apply Nst; rewrite <- Q; apply in_map; auto|cbn in Q; lia]. }
      destruct la as [[|]|].
      * apply bindC_ret in E as (m1 & k11 & k12 & E11 & E & ->). pose proof (KE2 _ _ _ E11) as KE3.
        destruct (set_ext _ _ _ _ _ E11) as (-> & X & O1 & O2). pose proof (phi_set _ _ _ _ _ R E11) as P. rewrite HO in P. destruct (Nat.ltb_spec i R); [|lia]. cbn [andb] in P.
        destruct (IH _ _ _ _ _ _ E SO' KE3) as [X2 P2]. rewrite cw_app, cl_app in P2. cbn [cw cl fold_right fst snd length] in P2.
        split; [eapply ext_weak; [eapply ext_trans; [eapply ext_weak; [exact X| |apply le_n]|exact X2]|lia|lia]; lia|lia].
      * destruct (IH _ _ _ _ _ _ E) as [X2 P2].
        { rewrite !map_app in *. cbn [map fst] in *. apply sorted_snoc; auto. }
        { apply Forall_app. split; auto. constructor; [|constructor]. split; auto. cbn [fst snd]. split; [lia|]. exists s, rl. split; auto. split; auto. apply incl_refl. }
        rewrite !cw_app, !cl_app in P2. cbn [cw cl fold_right fst snd length] in P2. split; [eapply ext_weak; [exact X2|lia|lia]|lia].
      * apply bindC_ret in E as (m1 & k11 & k12 & E11 & E & ->). pose proof (KE2 _ _ _ E11) as KE3.
        destruct (set_ext _ _ _ _ _ E11) as (-> & X & O1 & O2). pose proof (phi_set _ _ _ _ _ R E11) as P. rewrite HO in P. destruct (Nat.ltb_spec i R); [|lia]. cbn [andb] in P.
        apply bindC_ret in E as (m2 & k13 & k14 & E13 & E & ->). destruct (set_ext _ _ _ _ _ E13) as (-> & X2 & O3 & O4). pose proof (phi_set _ _ _ _ _ R E13) as P2.
        rewrite O2, T1 in P2 by lia. destruct (Nat.ltb_spec ti R); [|lia]. cbn [andb] in P2.
        apply bindC_ret in E as (m3 & k15 & k16 & E15 & E & ->). inversion E; subst. apply Forall_app in KE3 as [KE3 _].
        destruct (poison_cost R _ _ _ _ E15 NDs) as (-> & X3 & P3).
        { rewrite Forall_forall in *. intros e He. destruct (KE3 e He) as [A B]. split; auto. rewrite O4; auto. intros Q. apply NI. rewrite <- Q. apply in_map; auto. }
        pose proof (cl_length st). split; [|fold (cw st) (cl st) in *; lia].
        eapply ext_weak; [eapply ext_trans; [eapply ext_weak; [exact X| |apply le_n]|eapply ext_trans; [eapply ext_weak; [exact X2| |apply le_n]|exact X3]]| |]; lia.
Qed.

(** *** The recursive search *)
Lemma rec_cost fuel : forall m i depth b m' k, redundant_rec_n fuel m i p depth = Ret ((b, m'), k) ->
  open (mi_cache m) i = true \/ depth <= MAX_DEPTH ->
  ext (S i) m m' k /\ k + phi (mi_cache m') (S i) <= phi (mi_cache m) i + wt i.
Proof.
  induction fuel as [|f IH]; intros m i depth b m' k E H; [discriminate|]. cbn [redundant_rec_n] in E.
  apply bindC_ret in E as (s & k5 & k6 & E5 & E & ->). apply units_ret in E5 as [E5 ->]. apply vget_ok in E5.
  apply bindC_ret in E as (rl & k7 & k8 & E7 & E & ->). apply units_ret in E7 as [E7 ->].
  apply bindC_ret in E as (la & k9 & k10 & E9 & E & ->). apply lookahead_cost in E9.
  assert (Hw : wt i = 2 * length rl + 1) by (unfold wt, rlen; rewrite E5, E7; auto).
  assert (SET : forall m0 v m1 k1, cache_set_n m0 i v = Ret (m1, k1) -> phi (mi_cache m1) (S i) = phi (mi_cache m0) i).
  { intros m0 v m1 k1 E1. destruct (set_ext _ _ _ _ _ E1) as (_ & _ & O1 & _). pose proof (phi_set _ _ _ _ _ i E1) as P.
    destruct (Nat.ltb_spec i i); [lia|]. cbn [phi andb] in *. rewrite O1. lia. }
  destruct la as [[|]|].
  - apply bindC_ret in E as (m1 & k11 & k12 & E11 & E & ->). inversion E; subst. rewrite (SET _ _ _ _ E11). destruct (set_ext _ _ _ _ _ E11) as (-> & X & _).
    split; [eapply ext_weak; [exact X|lia|lia]|lia].
  - destruct (Nat.ltb_spec MAX_DEPTH depth) as [L|L].
    + destruct H as [H|H]; [|lia]. destruct (iter_cost (S i) _ _ _ _ _ _ _ E) as [X P].
      { cbn. constructor; constructor. }
      { constructor; [|constructor]. split; auto. cbn [fst snd]. split; [lia|]. exists s, rl. split; auto. split; auto. apply incl_refl. }
      cbn [app cw cl fold_right fst snd phi] in P. rewrite H in P. split; [eapply ext_weak; [exact X|lia|lia]|]. cbn [phi]. lia.
    + assert (G : forall ls m b m' k, incl ls rl ->
        (fix children (m : minim) (lits : list lit) {struct lits} : res ((bool * minim) * nat) :=
              match lits with
              | [] => let+ m1 := cache_set_n m i true in Ret ((true, m1), 0)
              | l :: rest =>
                  let+ ri := units 0 (trail_index t l) in
                  let+ c := cached_n m ri t in
                  let+ (b, m1) :=
                    match c with
                    | Some b => Ret ((b, m), 0)
                    | None => redundant_rec_n f m ri p (depth + 1)
                    end in
                  if b then children m1 rest
                  else let+ m2 := cache_set_n m1 i false in Ret ((false, m2), 0)
              end) m ls = Ret ((b, m'), k) ->
        ext (S i) m m' k /\ k + phi (mi_cache m') (S i) <= phi (mi_cache m) i + length ls + 1).
      { clear m b m' k10 E H E9. induction ls as [|l rest IHl]; intros m b m' k IN E.
        - apply bindC_ret in E as (m1 & k11 & k12 & E11 & E & ->). inversion E; subst. rewrite (SET _ _ _ _ E11). destruct (set_ext _ _ _ _ _ E11) as (-> & X & _).
          split; [eapply ext_weak; [exact X|lia|lia]|cbn; lia].
        - apply bindC_ret in E as (j & k1 & k2 & E1 & E & ->). apply units_ret in E1 as [E1 ->].
          apply bindC_ret in E as (c & k3 & k4 & E3 & E & ->). apply cached_cost in E3 as [-> HO].
          assert (Hj : j < i) by (eapply acyclic; eauto; apply IN; left; auto).
          apply bindC_ret in E as ([b1 m1] & k11 & k12 & E11 & E & ->).
          assert (C : ext i m m1 k11 /\ k11 + phi (mi_cache m1) i <= phi (mi_cache m) i).
          { destruct c as [b2|]; [inversion E11; subst; split; [apply ext_refl|lia]|]. specialize (HO eq_refl).
            destruct (IH _ _ _ _ _ _ E11 (or_introl HO)) as [X P]. split; [eapply ext_weak; [exact X|lia|lia]|].
            pose proof (phi_split _ _ _ _ i X ltac:(lia)) as Q. cbn [phi] in Q, P. rewrite HO in Q. lia. }
          destruct C as [X P]. destruct b1.
          + destruct (IHl m1 _ _ _ ltac:(intros z Hz; apply IN; right; auto) E) as [X2 P2]. split; [|cbn [length]; lia].
            eapply ext_weak; [eapply ext_trans; [eapply ext_weak; [exact X| |apply le_n]|exact X2]| |]; lia.
          + apply bindC_ret in E as (m2 & k13 & k14 & E13 & E & ->). inversion E; subst. rewrite (SET _ _ _ _ E13). destruct (set_ext _ _ _ _ _ E13) as (-> & X2 & _).
            split; [|cbn [length]; lia]. eapply ext_weak; [eapply ext_trans; [eapply ext_weak; [exact X| |apply le_n]|exact X2]| |]; lia. }
      destruct (G rl m b m' k10 (incl_refl _) E) as [X P]. split; [eapply ext_weak; [exact X|lia|lia]|lia].
  - apply bindC_ret in E as (m1 & k11 & k12 & E11 & E & ->). inversion E; subst. rewrite (SET _ _ _ _ E11). destruct (set_ext _ _ _ _ _ E11) as (-> & X & _).
    split; [eapply ext_weak; [exact X|lia|lia]|lia].
Qed.

(** *** The loop over the clause *)
Lemma retain_cost m kept l m' kept' k : retain_body_n p (m, kept) l = Ret ((m', kept'), k) ->
  exists i, trail_index t l = Ret i /\ i < length ss /\
    length (mi_clean m') <= length (mi_clean m) + k /\ length kept' <= S (length kept) /\
    k + phi (mi_cache m') (length ss) <= phi (mi_cache m) (length ss) + wt i + 1.
Proof.
  intro E. cbn [retain_body_n] in E. apply bindC_ret in E as (i & k1 & k2 & E1 & E & ->). apply units_ret in E1 as [E1 ->].
  apply bindC_ret in E as (s & k5 & k6 & E5 & E & ->). apply units_ret in E5 as [E5 ->]. apply vget_ok in E5.
  apply bindC_ret in E as (fi & k7 & k8 & E7 & E & ->). apply units_ret in E7 as [_ ->].
  apply bindC_ret in E as ([r m1] & k9 & k10 & E9 & E & ->). apply bindC_ret in E as (m2 & k11 & k12 & E11 & E & ->). inversion E; subst. clear E.
  exists i. split; auto. assert (Hi : i < length ss) by (apply nth_error_Some; congruence). split; auto.
  assert (C : length (mi_clean m1) <= length (mi_clean m) + k9 /\ k9 + phi (mi_cache m1) (length ss) <= phi (mi_cache m) (length ss) + wt i).
  { destruct (first_gt fi i).
    - apply bindC_ret in E9 as (fl & k13 & k14 & E13 & E9 & ->). apply units_ret in E13 as [_ ->]. inversion E9; subst. cbn [mi_clean mi_cache]. lia.
    - apply bindC_ret in E9 as ([r1 m3] & k13 & k14 & E13 & E9 & ->). inversion E9; subst.
      destruct (rec_cost _ _ _ _ _ _ _ E13) as [X P]; [right; unfold MAX_DEPTH; lia|]. pose proof (ex_clean _ _ _ _ X).
      pose proof (phi_split _ _ _ _ (length ss) X Hi) as Q. split; [lia|]. cbn [phi] in Q, P |- *. destruct (open (mi_cache m) i); lia. }
  destruct C as [C1 C2]. destruct (set_ext _ _ _ _ _ E11) as (-> & X & _). pose proof (ex_clean _ _ _ _ X). pose proof (phi_mono _ _ _ _ (length ss) X).
  split; [lia|]. split; [|lia]. destruct r; [rewrite app_length; cbn|]; lia.
Qed.
Lemma retain_all_cost ls : forall m kept m' kept' k, foldC (retain_body_n p) ls (m, kept) = Ret ((m', kept'), k) ->
  exists is, mapM (trail_index t) ls = Ret is /\ (forall i, In i is -> i < length ss) /\
    length (mi_clean m') <= length (mi_clean m) + k /\ length kept' <= length ls + length kept /\
    k + phi (mi_cache m') (length ss) <= phi (mi_cache m) (length ss) + fold_right (fun i a => wt i + a) 0 is + length ls.
Proof.
  induction ls as [|l ls IH]; intros m kept m' kept' k E; cbn [foldC] in E.
  - inversion E; subst. exists []. cbn. repeat split; auto; try lia.
  - apply bindC_ret in E as ([m1 kept1] & k1 & k2 & E1 & E & ->). destruct (retain_cost _ _ _ _ _ _ E1) as (i & A1 & A2 & A3 & A4 & A5).
    destruct (IH _ _ _ _ _ E) as (is & B1 & B2 & B3 & B4 & B5). exists (i :: is). cbn [mapM]. rewrite A1. cbn [bind]. rewrite B1. split; [reflexivity|].
    split; [intros j [<-|Hj]; auto|]. cbn [fold_right length]. repeat split; lia.
Qed.

Lemma wsum_nodup is : NoDup is -> forall R, (forall i, In i is -> i < R) -> fold_right (fun i a => wt i + a) 0 is <= wsum R.
Proof.
  intros ND R. revert is ND. induction R as [|r IH]; intros is ND H.
  - destruct is as [|i is]; [cbn; lia|]. specialize (H i (or_introl eq_refl)). lia.
  - assert (D : fold_right (fun i a => wt i + a) 0 is <= fold_right (fun i a => wt i + a) 0 (remove Nat.eq_dec r is) + wt r).
    { clear -ND. induction is as [|i is IHi]; [cbn; lia|]. inversion ND; subst. cbn [remove fold_right]. destruct (Nat.eq_dec r i) as [->|N].
      - rewrite notin_remove by auto. lia.
      - cbn [fold_right]. specialize (IHi H2). lia. }
    cbn [wsum]. specialize (IH (remove Nat.eq_dec r is)). etransitivity; [exact D|]. apply Nat.add_le_mono_r, IH.
    + clear -ND. induction ND as [|i is N ND IHi]; [constructor|]. cbn [remove]. destruct (Nat.eq_dec r i); auto. constructor; auto. intro Q. apply in_remove in Q as [Q _]. auto.
    + intros i Hi. apply in_remove in Hi as [Hi N]. specialize (H i Hi). lia.
Qed.

Lemma clean_cost {A S} (f : S -> A -> res S) ls : forall s s' k, foldC (fun s a => units 1 (f s a)) ls s = Ret (s', k) -> k = length ls.
Proof.
  induction ls as [|a r IH]; intros s s' k E; cbn [foldC] in E; [inversion E; auto|].
  apply bindC_ret in E as (s1 & k1 & k2 & E1 & E & ->). apply units_ret in E1 as [_ ->]. apply IH in E. cbn. lia.
Qed.

Lemma minimize_cost m cl r k : mi_clean m = [] ->
  (forall is, mapM (trail_index t) cl = Ret is -> NoDup is) ->
  minimize_n m cl p = Ret (r, k) -> k <= 4 * wsum (length ss) + 3 * length cl.
Proof.
  intros Hc ND E. unfold minimize_n in E. apply bindC_ret in E as (f2 & k1 & k2 & E1 & E & ->). apply units_ret in E1 as [_ ->].
  apply bindC_ret in E as (so & k3 & k4 & E3 & E & ->). apply units_ret in E3 as [E3 ->].
  destruct (rev so) as [|u rs] eqn:Er; [discriminate|]. apply bindC_ret in E as ([m1 kept] & k5 & k6 & E5 & E & ->).
  apply bindC_ret in E as (c2 & k7 & k8 & E7 & E & ->). apply clean_cost in E7. apply bindC_ret in E as (f3 & k9 & k10 & E9 & E & ->). apply clean_cost in E9.
  apply bindC_ret in E as (l1 & k11 & k12 & E11 & E & ->). apply units_ret in E11 as [_ ->]. apply bindC_ret in E as (s & k13 & k14 & E13 & E & ->).
  apply units_ret in E13 as [_ ->]. inversion E; subst. clear E.
  destruct (retain_all_cost _ _ _ _ _ _ E5) as (is & B1 & B2 & B3 & B4 & B5). cbn [mi_clean mi_cache length] in *. rewrite Hc in B3. cbn [length] in B3.
  assert (PE : Permutation cl so).
  { unfold sort_by_trail in E3. destruct (mapM (fun l => let* i := trail_index t l in Ret (i, l)) cl) as [ks| |] eqn:Ek; try discriminate. cbn [bind] in E3. inversion E3 as [E4].
    assert (Es : map snd ks = cl).
    { clear -Ek. revert ks Ek. induction cl as [|l c IH]; intros ks Ek; cbn [mapM] in Ek; [inversion Ek; auto|].
      destruct (trail_index t l) as [i| |]; try discriminate. cbn [bind] in Ek. destruct (mapM _ c) as [ks'| |]; try discriminate. cbn [bind] in Ek. inversion Ek; subst. cbn. f_equal. apply IH; auto. }
    rewrite <- Es. clear. induction ks as [|[k l] ks IH]; [constructor|]. cbn [map snd fold_right fst]. etransitivity; [apply perm_skip, IH|].
    set (xs := fold_right _ _ _). clearbody xs. clear. induction xs as [|[k' l'] xs IH]; cbn; auto. destruct (Nat.leb k k'); cbn; auto. etransitivity; [apply perm_swap|]. auto. }
  assert (So : so = removelast so ++ [u]).
  { destruct (@exists_last _ so) as (so' & u' & ->); [intros ->; discriminate|]. rewrite rev_app_distr in Er. inversion Er; subst. rewrite removelast_last. auto. }
  assert (NDi : NoDup is).
  { assert (L : forall l a, Permutation l a -> forall js, mapM (trail_index t) a = Ret js -> exists js', mapM (trail_index t) l = Ret js' /\ Permutation js js').
    { clear. induction 1 as [|x l a P IH|x y l|l a b P1 IH1 P2 IH2]; intros js Ej.
      - exists js. auto.
      - cbn [mapM] in *. destruct (trail_index t x) as [i| |]; try discriminate. cbn [bind] in *. destruct (mapM _ a) as [ja| |]; try discriminate. cbn [bind] in Ej. inversion Ej; subst.
        destruct (IH _ eq_refl) as (js' & -> & P'). exists (i :: js'). auto.
      - cbn [mapM] in *. destruct (trail_index t x) as [i| |]; try discriminate. cbn [bind] in *. destruct (trail_index t y) as [j| |]; try discriminate. cbn [bind] in *.
        destruct (mapM _ l) as [jl| |]; try discriminate. cbn [bind] in *. inversion Ej; subst. exists (j :: i :: jl). split; auto. apply perm_swap.
      - destruct (IH2 _ Ej) as (j1 & A1 & A2). destruct (IH1 _ A1) as (j2 & A3 & A4). exists j2. split; auto. etransitivity; eauto. }
    (* the last literal has a position as well if the sort succeeded *)
    assert (U : exists iu, trail_index t u = Ret iu).
    { unfold sort_by_trail in E3. destruct (mapM (fun l => let* i := trail_index t l in Ret (i, l)) cl) as [ks| |] eqn:Ek; try discriminate.
      assert (Hu : In u cl) by (eapply Permutation_in; [apply Permutation_sym; exact PE|]; rewrite So; apply in_or_app; right; left; auto).
      clear -Ek Hu. revert ks Ek. induction cl as [|l c IH]; intros ks Ek; [contradiction|]. cbn [mapM] in Ek.
      destruct (trail_index t l) as [i| |] eqn:Ei; try discriminate. cbn [bind] in Ek. destruct (mapM _ c) as [ks'| |]; try discriminate. destruct Hu as [->|Hu]; eauto. }
    destruct U as (iu & Eu).
    destruct (L cl (u :: removelast so)) with (js := iu :: is) as (js & J1 & J2).
    - etransitivity; [exact PE|]. rewrite So at 1. apply Permutation_sym, Permutation_cons_append.
    - cbn [mapM]. rewrite Eu. cbn [bind]. rewrite B1. reflexivity.
    - apply ND in J1. apply (Permutation_NoDup (Permutation_sym J2)) in J1. inversion J1; auto. }
  pose proof (wsum_nodup is NDi (length ss) B2) as W. set (first2 := mkMin _ _ _) in *.
  pose proof (phi_wsum (mi_cache first2) (length ss)) as W2. unfold first2 in W2. cbn [mi_cache] in W2.
  assert (LL : length cl = S (length (removelast so))). { rewrite (Permutation_length PE), So at 1. rewrite app_length. cbn. lia. }
  rewrite app_length in *. cbn [length] in *. lia.
Qed.

(** The sum of the weights. *)
Lemma wsum_steps : wsum (length ss) = 2 * fold_right (fun s a => match reason_lits (p_long p) (s_reason s) with Ret ls => length ls | _ => 0 end + a) 0 ss + length ss.
Proof.
  assert (G : forall pre suf, ss = pre ++ suf -> wsum (length pre) = 2 * fold_right (fun s a => match reason_lits (p_long p) (s_reason s) with Ret ls => length ls | _ => 0 end + a) 0 pre + length pre).
  { induction pre as [|s pre IH] using rev_ind; intros suf E; [reflexivity|]. rewrite app_length, Nat.add_comm. cbn [length wsum Nat.add].
    rewrite (IH ([s] ++ suf)) by (rewrite <- app_assoc in E; auto). unfold wt, rlen. rewrite E, <- app_assoc, nth_error_app2, Nat.sub_diag by lia. cbn [app nth_error].
    rewrite fold_right_app. cbn [fold_right]. set (x := match reason_lits _ _ with Ret ls => length ls | _ => 0 end). clearbody x.
    assert (Q : forall l a, fold_right (fun s a => match reason_lits (p_long p) (s_reason s) with Ret ls => length ls | _ => 0 end + a) a l = fold_right (fun s a => match reason_lits (p_long p) (s_reason s) with Ret ls => length ls | _ => 0 end + a) 0 l + a).
    { clear. induction l as [|y l IH]; intro a; cbn; [lia|]. rewrite IH. lia. }
    rewrite (Q pre (x + 0)). lia. }
  apply (G ss []). rewrite app_nil_r. auto.
Qed.
End Cost.
