(** C95: results do not depend on the implementation of [select_nth_unstable]. *)
From Coq Require Import NArith List Bool Arith Lia Permutation.
From Verif Require Import Model_Base Model_Lit Model_Arena Model_Prop Model_Solver Spec Drivers_Solver Drivers_Api Drivers_Unstable
  Proof_Base Proof_Select Proof_Unstable Examples_Solver Prop_Memory.
Import ListNotations.

Lemma cs_call select select' dbg fuel s s' c : select_ok pair_le select -> select_ok pair_le select' -> ssame s s' ->
  relp (fun x y => same_result (fst x, cx_stats (so_ctx (snd x))) (fst y, cx_stats (so_ctx (snd y))) /\ ssame (snd x) (snd y))
    (call_result select dbg fuel s c) (call_result select' dbg fuel s' c).
Proof.
  intros Hs Hs' H. destruct c; cbn [call_result].
  - eapply relp_bind; [apply cs_solver_add, H|]. intros s1 s1' H1. cbn. split; auto. split; [symmetry; apply H1|reflexivity].
  - eapply relp_bind; [apply (cs_solve _ _ _ Hs Hs'), H|]. intros [b s1] [b' s1'] [E H1]. cbn [fst snd] in *. subst b'. cbn. split; auto. split; [symmetry; apply H1|reflexivity].
  - unfold solver_value. rewrite (proj1 (proj1 H)), (proj2 H). apply relp_bind_same. intros o _. cbn. split; auto. split; [symmetry; apply H|reflexivity].
  - cbn. destruct H as [[E1 E2] E3]. split; [split; [symmetry; exact E1|reflexivity]|]. split; [split; [exact E1|cbn; constructor]|exact E3].
  - cbn. destruct H as [[E1 E2] E3]. split; [split; [symmetry; exact E1|exact E2]|]. split; [split; [exact E1|exact I]|exact E3].
Qed.
Lemma cs_api select select' dbg fuel calls : select_ok pair_le select -> select_ok pair_le select' -> forall s s', ssame s s' ->
  relp (Forall2 same_result) (api select dbg fuel s calls) (api select' dbg fuel s' calls).
Proof.
  intros Hs Hs'. induction calls as [|c calls IH]; intros s s' H; cbn [api]; [cbn; constructor|].
  eapply relp_bind; [apply (cs_call _ _ _ _ _ _ _ Hs Hs' H)|]. intros [r s1] [r' s1'] [E H1]. cbn [fst snd] in *. eapply relp_bind; [apply IH, H1|]. intros rs rs' Hr. cbn. constructor; auto.
Qed.

(** ** C95 *)
(** Whatever calls are made, in either build, and whichever two implementations of
    [select_nth_unstable] are used: all results, values and statistics are the same,
    and the proofs are the same up to the order of deletions that follow each other.
    ([OutOfFuel]: some [solve] needs more than [fuel] search steps.) *)
Theorem selection_order_irrelevant select select' dbg fuel calls :
  select_ok lex_le select -> select_ok lex_le select' ->
  match api select dbg fuel solver_new calls, api select' dbg fuel solver_new calls with
  | Ret seen, Ret seen' => Forall2 same_result seen seen'
  | Panic _, Panic _ => True
  | OutOfFuel, OutOfFuel => True
  | _, _ => False
  end.
Proof.
  intros Hs Hs'. exact (cs_api select select' dbg fuel calls Hs Hs' solver_new solver_new (conj (cs_refl _) eq_refl)).
Qed.

(** The state of the search is the same as well: trail, clause database, heuristics
    and schedule. *)
Theorem selection_order_state select select' dbg fuel s b s1 :
  select_ok lex_le select -> select_ok lex_le select' -> solve select dbg fuel s = Ret (b, s1) ->
  exists s1', solve select' dbg fuel s = Ret (b, s1') /\ so_state s1' = so_state s1 /\ cx_stats (so_ctx s1') = cx_stats (so_ctx s1) /\
    same_proof (cx_proof (so_ctx s1)) (cx_proof (so_ctx s1')).
Proof.
  intros Hs Hs' E. pose proof (cs_solve select select' dbg Hs Hs' fuel s s (conj (cs_refl _) eq_refl)) as H. rewrite E in H. destruct (solve select' dbg fuel s) as [[b' s1']| |]; cbn in H; try contradiction.
  destruct H as (<- & [H1 H2] & H3). exists s1'. auto.
Qed.

(** The additions of reordered proofs are the same, and so are the deletions between
    two additions. *)
Definition adds (l : list proof_step) : list (list N) := flat_map (fun x => match x with PAdd c => [c] | PDelete _ => [] end) l.
Definition dels (l : list proof_step) : list (list N) := flat_map (fun x => match x with PDelete c => [c] | PAdd _ => [] end) l.
Theorem reordered_prefix l l' : reordered l l' -> adds l = adds l' /\
  forall k c r, l = k ++ PAdd c :: r -> exists k' r', l' = k' ++ PAdd c :: r' /\ adds k = adds k' /\ Permutation (dels k) (dels k') /\ Permutation (dels r) (dels r').
Proof.
  intro H. assert (G : adds l = adds l' /\ Permutation (dels l) (dels l') /\
    forall k c r, l = k ++ PAdd c :: r -> exists k' r', l' = k' ++ PAdd c :: r' /\ adds k = adds k' /\ Permutation (dels k) (dels k') /\ Permutation (dels r) (dels r')); [|tauto].
  induction H as [|x l l' H (A & D & IH)|c d l|l1 l2 l3 H1 (A1 & D1 & IH1) H2 (A2 & D2 & IH2)].
  - repeat split; auto. intros [|? ?] c r E; discriminate.
  - split; [|split].
    + cbn. unfold adds in A. now rewrite A.
    + cbn. apply Permutation_app_head. exact D.
    + intros [|y k] c r E; cbn [app] in E.
      * injection E as -> ->. exists [], l'. repeat split; auto.
      * injection E as -> ->. destruct (IH k c r eq_refl) as (k' & r' & -> & E1 & E2 & E3). exists (y :: k'), r'. repeat split; auto; cbn; [unfold adds in E1; now rewrite E1|now apply Permutation_app_head].
  - split; [reflexivity|]. split; [cbn; constructor|]. intros [|y [|z k]] c0 r E; cbn [app] in E; try discriminate. injection E as <- <- ->.
    exists (PDelete d :: PDelete c :: k), r. repeat split; auto. cbn. constructor.
  - split; [congruence|]. split; [eapply Permutation_trans; eauto|]. intros k c r E. destruct (IH1 k c r E) as (k1 & r1 & E1 & B1 & B2 & B3). destruct (IH2 k1 c r1 E1) as (k2 & r2 & E2 & C1 & C2 & C3).
    exists k2, r2. split; auto. split; [congruence|]. split; eapply Permutation_trans; eauto.
Qed.

(** ** Examples *)
(** Another implementation: the selected part comes in reversed order. *)
Definition select_back (l : list (N * nat)) (k : nat) : list (N * nat) * (N * nat) * list (N * nat) :=
  let '(lo, m, hi) := select_sort l k in (rev lo, m, rev hi).
Lemma select_back_ok : select_ok lex_le select_back.
Proof.
  intros xs k Hk. pose proof (select_sort_ok xs k Hk) as H. unfold select_back. destruct (select_sort xs k) as [[lo m] hi]. destruct H as (P & L & A & B). split; [|split; [|split]].
  - eapply Permutation_trans; [exact P|]. apply Permutation_app; [apply Permutation_rev|]. constructor. apply Permutation_rev.
  - now rewrite rev_length.
  - intros x Hx. apply A. now apply in_rev.
  - intros x Hx. apply B. now apply in_rev.
Qed.
(** The clauses a reduction deletes from six pigeons and five holes, as the two
    implementations log them. *)
Definition later6 : solver := after true 150 (added true php6).
Definition reduce_log (s : solver) (select : selection) : option (list proof_step) :=
  match restart true (mkCtx (cx_stats (so_ctx s)) (Some [])) (sta_search (so_state s)) with
  | Ret (cx, se) => match reduce select cx se with Ret (cx, se) => cx_proof cx | _ => None end
  | _ => None
  end.
Definition logged : selection -> option (list proof_step) := reduce_log later6.
Lemma three_back (x y : option (list proof_step)) :
  match x, y with
  | Some [PDelete a; PDelete b; PDelete c], Some [PDelete c'; PDelete b'; PDelete a'] => a = a' /\ b = b' /\ c = c' /\ length a = 8 /\ length c = 11
  | _, _ => False
  end -> exists a b c, x = Some [PDelete a; PDelete b; PDelete c] /\ y = Some [PDelete c; PDelete b; PDelete a] /\ a <> c.
Proof.
  intro X. destruct x as [[|[a|a] [|[b|b] [|[c|c] [|]]]]|]; try contradiction. destruct y as [[|[c'|c'] [|[b'|b'] [|[a'|a'] [|]]]]|]; try contradiction.
  destruct X as (-> & -> & -> & A & C). exists a', b', c'. split; auto. split; auto. intros ->. lia.
Qed.
Example selection_order_example : select_ok lex_le select_sort /\ select_ok lex_le select_back /\
  exists a b c, logged select_sort = Some [PDelete a; PDelete b; PDelete c] /\ logged select_back = Some [PDelete c; PDelete b; PDelete a] /\ a <> c.
Proof.
  split; [exact select_sort_ok|]. split; [exact select_back_ok|]. apply three_back. vm_compute. auto.
Qed.
Example reordered_example : reordered [PAdd [1]; PDelete [2]; PDelete [4]; PDelete [6]; PAdd [3]]%N [PAdd [1]; PDelete [6]; PDelete [4]; PDelete [2]; PAdd [3]]%N.
Proof.
  apply ro_skip. eapply ro_trans; [apply ro_swap|]. eapply ro_trans; [apply ro_skip, ro_swap|]. apply ro_swap.
Qed.

Print Assumptions selection_order_irrelevant.
Print Assumptions selection_order_state.
Print Assumptions reordered_prefix.
