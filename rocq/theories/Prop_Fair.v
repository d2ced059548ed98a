(** C100: the counters used for running times do not undercount.  The loops of the model
    without counters stop after as many rounds as their fuel, or the prefix of the list
    they are given, allows; here the number of rounds is limited by the counter. *)
From Coq Require Import NArith List Bool Arith Lia ZifyN ZifyNat ZifyBool.
From Verif Require Import Model_Base Model_Lit Model_PartialAssignment Model_Header Model_MutScan Model_Arena Model_Prop
  Model_Heap Model_Vsids Model_Analysis Model_Cost Model_Work Model_HeapCost Model_DeriveCost Model_Luby Model_Solver Model_GcCost Model_ReduceCost Model_RunQueue
  Proof_Base Proof_Cost Proof_Work Proof_GcCost Proof_ReduceCost Proof_RunQueue Prop_HeapCost Prop_GcCost Prop_DeriveCost Drivers_Solver Drivers_Search Examples_Solver Proof_Select Prop_Prop Prop_Analysis Prop_Memory Prop_ReduceCost.
Import ListNotations.

(** ** Tactics *)
Ltac cstep H := let a := fresh "a" in let k1 := fresh "k" in let k2 := fresh "k" in let E := fresh "E" in let Ek := fresh "Ek" in
  apply bindC_ret in H as (a & k1 & k2 & E & H & Ek).
Ltac ustep H := let a := fresh "a" in let k1 := fresh "k" in let k2 := fresh "k" in let E := fresh "E" in let Ek := fresh "Ek" in
  apply bindC_ret in H as (a & k1 & k2 & E & H & Ek); apply units_ret in E as [E ->].
Lemma erase_of {A} (x : res (A * nat)) y a k : erase x = y -> x = Ret (a, k) -> y = Ret a.
Proof. intros <- ->. reflexivity. Qed.

(** ** Priority queue *)
Lemma root_fair fuel : forall h v pos h' k f, root_loop_n fuel h v pos = Ret (h', k) -> (k + 1) / 2 <= f -> root_loop f h v pos = Ret h'.
Proof.
  induction fuel as [|fuel IH]; intros h v pos h' k f E L; destruct pos as [|pos]; cbn [root_loop_n] in E.
  - inversion E; subst. destruct f; reflexivity.
  - discriminate.
  - inversion E; subst. destruct f; reflexivity.
  - ustep E. unfold less_n in E. ustep E. injection E1 as <-. destruct (a <? v)%N eqn:Ec.
    + cstep E. unfold heap_swap_n in E1. apply units_ret in E1 as [E1 ->].
      assert (Q : (k + 1) / 2 = S ((k3 + 1) / 2)). { replace (k + 1) with (k3 + 1 + 1 * 2) by lia. rewrite Nat.div_add by lia. lia. }
      destruct f as [|f]; [lia|]. cbn [root_loop]. rewrite E0. cbn [bind]. rewrite Ec, E1. cbn [bind]. apply (IH _ _ _ _ _ _ E). lia.
    + inversion E; subst. destruct f as [|f]; [cbn in L; lia|]. cbn [root_loop]. rewrite E0. cbn [bind]. rewrite Ec. reflexivity.
Qed.
Lemma bindC_eq {A B} (x : res (A * nat)) (f : A -> res (B * nat)) a b k1 k2 k : x = Ret (a, k1) -> f a = Ret (b, k2) -> k = k1 + k2 -> bindC x f = Ret (b, k).
Proof. intros -> E ->. unfold bindC. cbn [bind]. rewrite E. reflexivity. Qed.
Ltac fin E := eapply bindC_eq; [exact E| |]; [|reflexivity || eassumption || lia].

Lemma leaves_fair fuel : forall h v pos h' k f, leaves_loop_n fuel h v pos = Ret (h', k) -> k / 2 < f -> leaves_loop_n f h v pos = Ret (h', k).
Proof.
  induction fuel as [|fuel IH]; intros h v pos h' k f E L; cbn [leaves_loop_n] in E; [discriminate|].
  destruct f as [|f]; [lia|]. cbn [leaves_loop_n]. cstep E. destruct a as [sp sv]. cstep E. cbn beta iota in *.
  destruct (Nat.eqb a pos) eqn:Eq.
  - eapply bindC_eq; [exact E0| |eassumption]. cbn beta iota. eapply bindC_eq; [exact E1| |eassumption]. rewrite Eq. exact E.
  - cstep E. unfold heap_swap_n in E2. pose proof E2 as E2'. apply units_ret in E2' as [_ ->].
    eapply bindC_eq; [exact E0| |eassumption]. cbn beta iota. eapply bindC_eq; [exact E1| |eassumption]. cbn beta iota. rewrite Eq. eapply bindC_eq; [exact E2| |eassumption].
    assert (C : 1 <= k0 + k2).
    { destruct (Nat.ltb (pos * 2 + 1) (length (h_heap h))) eqn:B1.
      - ustep E0. unfold less_n in E0. ustep E0. lia.
      - inversion E0; subst sp sv k0. destruct (Nat.ltb (pos * 2 + 2) (length (h_heap h))) eqn:B2; [exfalso; lia|]. inversion E1; subst. rewrite Nat.eqb_refl in Eq. discriminate. }
    apply (IH _ _ _ _ _ _ E). assert (Q : (k5 + 1 * 2) / 2 <= k / 2) by (apply Nat.div_le_mono; lia). rewrite Nat.div_add in Q by lia. lia.
Qed.

Lemma pop_cost h o h' k : pop_max_n h = Ret ((o, h'), k) -> length (h_heap h) <= 1 \/ 1 <= k.
Proof.
  unfold pop_max_n. destruct (h_heap h) as [|i [|j r]]; [cbn; auto..|]. cbn [length]. destruct (Nat.eqb _ 0) eqn:B; [cbn [length] in B; lia|]. intro E.
  cstep E. unfold heap_swap_n in E0. apply units_ret in E0 as [_ ->]. lia.
Qed.
Lemma pop_loop_fair vals fuel : forall h r k f, pop_loop_q fuel h vals = Ret (r, k) -> k + 1 < f -> pop_loop_q f h vals = Ret (r, k).
Proof.
  induction fuel as [|fuel IH]; intros h r k f E L; cbn [pop_loop_q] in E; [discriminate|]. destruct f as [|f]; [lia|]. cbn [pop_loop_q].
  cstep E. destruct a as [o h1]. eapply bindC_eq; [exact E0| |eassumption]. cbn beta iota in *. destruct o as [v|]; [|exact E]. ustep E. eapply bindC_eq; [rewrite E1; reflexivity| |eassumption].
  destruct a; cbn [negb] in *; [|exact E]. destruct (pop_cost _ _ _ _ E0) as [S|S]; [|apply (IH _ _ _ _ E); lia].
  assert (Z : h_heap h1 = []).
  { clear - E0 S. unfold pop_max_n in E0. destruct (h_heap h) as [|i [|j l]] eqn:Eh; [discriminate| |cbn in S; lia]. cbn [length Nat.sub Nat.eqb] in E0. ustep E0. inversion E0; subst.
    unfold heap_clear_pos in E. destruct (vset _ _ _) as [ps| |]; cbn [bind] in E; try discriminate. inversion E; subst. unfold heap_pop_last. cbn [h_heap]. rewrite Eh. reflexivity. }
  destruct fuel as [|fuel]; [discriminate|]. destruct f as [|f]; [lia|]. cbn [pop_loop_q] in *. unfold pop_max_n in *. rewrite Z in *. exact E.
Qed.

(** ** Unit propagation *)
Lemma search_fair vals ls len : forall n pos r k, search_loop_n vals ls len n pos = Ret (r, k) -> k <= n /\ search_loop_n vals ls len k pos = Ret (r, k) /\ (snd r = None -> k = n).
Proof.
  induction n as [|n IH]; intros pos r k E; cbn [search_loop_n] in E; [inversion E; subst; cbn; auto|].
  ustep E. ustep E. destruct a0; cbn [negb] in E.
  - apply IH in E as (A & B & C). subst k1 k. change (1 + (0 + k2)) with (S k2). split; [lia|]. split.
    + cbn [search_loop_n]. eapply bindC_eq; [rewrite E0; reflexivity| |reflexivity]. eapply bindC_eq; [rewrite E1; reflexivity| |reflexivity]. exact B.
    + intro H. rewrite (C H). reflexivity.
  - pose proof E as E'. ustep E'. inversion E'; subst. split; [lia|]. split; [|intro H; discriminate].
    cbn [search_loop_n]. eapply bindC_eq; [rewrite E0; reflexivity| |reflexivity]. eapply bindC_eq; [rewrite E1; reflexivity| |reflexivity]. exact E.
Qed.
Lemma binary_fair dbg cl others : forall p p' r k, binary_loop_n dbg p cl others = Ret ((p', r), k) ->
  k <= length others /\ binary_loop dbg p cl (firstn k others) = Ret (p', r) /\ (r = None -> k = length others).
Proof.
  induction others as [|o others IH]; intros p p' r k E; cbn [binary_loop_n] in E; [inversion E; subst; cbn; auto|].
  ustep E. destruct a.
  - apply IH in E as (A & B & C). cbn [Nat.add] in Ek. subst k. cbn [length firstn binary_loop]. rewrite E0. cbn [bind]. split; [lia|]. split; [exact B|]. intro H. rewrite (C H). reflexivity.
  - ustep E. destruct a.
    + inversion E; subst. cbn [length Nat.add firstn binary_loop]. rewrite E0. cbn [bind]. rewrite E1. split; [lia|]. split; [reflexivity|discriminate].
    + cstep E. destruct a as [v tr]. apply units_ret in E2 as [E2 ->]. apply IH in E as (A & B & C). cbn [Nat.add] in *. subst k2 k1 k. cbn [length firstn binary_loop]. rewrite E0. cbn [bind]. rewrite E1. cbn [bind]. rewrite E2. cbn [bind].
      split; [lia|]. split; [exact B|]. intro H. rewrite (C H). reflexivity.
Qed.

Lemma watch_cost dbg w0 st w r k : watch_body_n dbg w0 st w = Ret (r, k) -> 1 <= k.
Proof. destruct st as [p res]. unfold watch_body_n. intro E. ustep E. lia. Qed.
Lemma watch_stop dbg w0 p r w st y k : watch_body_n dbg w0 (p, r) w = Ret ((st, MSKeepStop y), k) -> snd st <> None.
Proof.
  unfold watch_body_n. intro E. ustep E. destruct a; [inversion E|]. ustep E. destruct (Nat.ltb _ _); [inversion E|]. do 5 ustep E. destruct a4; [inversion E|].
  cstep E. destruct a4 as [sp [[l []]|]]; ustep E; [inversion E|ustep E; ustep E; inversion E|]. ustep E. destruct a5.
  - inversion E; subst. cbn. discriminate.
  - ustep E. cstep E. destruct a6. inversion E.
Qed.
(** [rounds] of the scan are done; the rest of the list stays as it is. *)
Lemma watch_fair dbg w0 v : forall s s' v' k, watch_loop_n dbg w0 v s = Ret ((s', v'), k) ->
  exists rounds v1, rounds <= k /\ rounds <= length v /\ scan_list (watch_body dbg w0) (firstn rounds v) s = Ret (s', v1) /\ v' = v1 ++ skipn rounds v /\
    (snd s' = None -> rounds = length v).
Proof.
  induction v as [|x v IH]; intros s s' v' k E; cbn [watch_loop_n] in E.
  - inversion E; subst. exists 0, []. cbn. auto.
  - cstep E. destruct a as [s1 act]. pose proof (watch_cost _ _ _ _ _ _ E0) as C. pose proof (erase_of _ _ _ _ (er_watch dbg w0 s x) E0) as E1. destruct act as [y| |y].
    + cstep E. destruct a as [s2 r']. inversion E; subst. apply IH in E2 as (n & v1 & A & B & D & -> & G). exists (S n), (y :: v1). cbn [length firstn skipn scan_list app]. rewrite E1. cbn [bind]. rewrite D. cbn [bind].
      split; [lia|]. split; [lia|]. split; [reflexivity|]. split; [reflexivity|]. intro H. rewrite (G H). reflexivity.
    + apply IH in E as (n & v1 & A & B & D & -> & G). exists (S n), v1. cbn [length firstn skipn scan_list app]. rewrite E1. cbn [bind].
      split; [lia|]. split; [lia|]. split; [exact D|]. split; [reflexivity|]. intro H. rewrite (G H). reflexivity.
    + inversion E; subst. exists 1, [y]. cbn [length firstn skipn scan_list app]. rewrite E1. cbn [bind]. split; [lia|]. split; [lia|]. split; [reflexivity|]. split; [reflexivity|].
      intro H. exfalso. destruct s as [p r]. exact (watch_stop _ _ _ _ _ _ _ _ E0 H).
Qed.

(** ** Clause memory *)
Lemma find_fair H fuel : forall buf pos r k f, find_clause_loop_n H fuel buf pos = Ret (r, k) -> k < f -> find_clause_loop_n H f buf pos = Ret (r, k).
Proof.
  induction fuel as [|fuel IH]; intros buf pos r k f E L; cbn [find_clause_loop_n] in E; [discriminate|]. destruct f as [|f]; [lia|]. cbn [find_clause_loop_n].
  destruct (nth_error buf pos) as [w|]; [|exact E]. destruct (has_marker w); [destruct (w =? LEN_MARKER)%N; [|exact E]|]; cstep E;
  (eapply bindC_eq; [exact E0| |eassumption]; apply units_ret in E0 as [_ ->]; apply (IH _ _ _ _ _ E); lia).
Qed.
Lemma lookup_fair fuel gaps c : forall lo size hi r k f, gc_search_n fuel gaps c lo size hi = Ret (r, k) -> k < f -> gc_search_n f gaps c lo size hi = Ret (r, k).
Proof.
  induction fuel as [|fuel IH]; intros lo size hi r k f E L; cbn [gc_search_n] in E; [discriminate|]. destruct f as [|f]; [lia|]. cbn [gc_search_n].
  destruct (Nat.ltb lo hi); [|exact E]. cstep E. eapply bindC_eq; [exact E0| |eassumption]. apply units_ret in E0 as [_ ->]. destruct (Nat.ltb c (g_start a)); apply (IH _ _ _ _ _ _ E); lia.
Qed.
(** Every round moves at least one word, and the counter is at least the number of words
    moved. *)
Lemma gc_fair H fuel : forall a rd wo ex gaps a' wo' ex' gaps' k f, gc_loop_n H fuel a rd wo ex gaps = Ret ((a', wo', ex', gaps'), k) ->
  (k < f -> gc_loop_n H f a rd wo ex gaps = Ret ((a', wo', ex', gaps'), k)) /\ wo' <= wo + k.
Proof.
  induction fuel as [|fuel IH]; intros a rd wo ex gaps a' wo' ex' gaps' k f E; cbn [gc_loop_n] in E; [discriminate|].
  destruct rd as [c|].
  - cstep E. cstep E. cstep E. pose proof E2 as E2'. apply units_ret in E2' as [_ ->]. pose proof (IH _ _ _ _ _ _ _ _ _ _ (pred f) E) as [A B]. split; [|lia]. intro L. destruct f as [|f]; [lia|]. cbn [gc_loop_n].
    eapply bindC_eq; [exact E0| |eassumption]. eapply bindC_eq; [exact E1| |eassumption]. eapply bindC_eq; [exact E2| |eassumption]. apply A. cbn [pred]. lia.
  - inversion E; subst. split; [|lia]. intro L. destruct f; [lia|]. reflexivity.
Qed.
Lemma candidates_fair fuel : forall a it cs r k f, candidates_loop_n fuel a it cs = Ret (r, k) -> k < f -> candidates_loop_n f a it cs = Ret (r, k).
Proof.
  induction fuel as [|fuel IH]; intros a it cs r k f E L; cbn [candidates_loop_n] in E; [discriminate|]. destruct f as [|f]; [lia|]. cbn [candidates_loop_n].
  cstep E. eapply bindC_eq; [exact E0| |eassumption]. destruct a0 as [c|]; [|exact E]. cstep E. eapply bindC_eq; [exact E1| |eassumption]. destruct a0 as [a1 o]. apply units_ret in E1 as [_ ->]. apply (IH _ _ _ _ _ _ E). lia.
Qed.

(** ** Minimization *)
Lemma lookahead_fair m t ls : forall b r k, lookahead_n m t ls b = Ret (r, k) ->
  k <= length ls /\ lookahead m t (firstn k ls) b = Ret r /\ (r <> None -> k = length ls).
Proof.
  induction ls as [|l ls IH]; intros b r k E; cbn [lookahead_n] in E; [inversion E; subst; cbn; auto|].
  ustep E. unfold cached_n in E. ustep E. destruct a0 as [[]|].
  - apply IH in E as (A & B & C). cbn [Nat.add] in *. subst k1 k. cbn [length firstn lookahead]. rewrite E0. cbn [bind]. rewrite E1. cbn [bind]. split; [lia|]. split; [exact B|]. intro H. rewrite (C H). reflexivity.
  - inversion E; subst. cbn [Nat.add length firstn lookahead]. rewrite E0. cbn [bind]. rewrite E1. split; [lia|]. split; [reflexivity|]. congruence.
  - apply IH in E as (A & B & C). cbn [Nat.add] in *. subst k1 k. cbn [length firstn lookahead]. rewrite E0. cbn [bind]. rewrite E1. cbn [bind]. split; [lia|]. split; [exact B|]. intro H. rewrite (C H). reflexivity.
Qed.
Lemma iter_fair p fuel : forall m top stack r k f, redundant_iter_n fuel m p top stack = Ret (r, k) -> k < f -> redundant_iter_n f m p top stack = Ret (r, k).
Proof.
  induction fuel as [|fuel IH]; intros m [ti tl] stack r k f E L; cbn [redundant_iter_n] in E; [discriminate|]. destruct f as [|f]; [lia|]. cbn [redundant_iter_n].
  destruct tl as [|l rest].
  - cstep E. eapply bindC_eq; [exact E0| |eassumption]. unfold cache_set_n in E0. apply units_ret in E0 as [_ ->]. destruct (rev stack) as [|nt rs]; [exact E|]. apply (IH _ _ _ _ _ _ E). lia.
  - cstep E. eapply bindC_eq; [exact E0| |eassumption]. cstep E. eapply bindC_eq; [exact E1| |eassumption]. unfold cached_n in E1. apply units_ret in E1 as [_ ->]. destruct a0 as [[]|].
    + apply (IH _ _ _ _ _ _ E). lia.
    + exact E.
    + cstep E. eapply bindC_eq; [exact E1| |eassumption]. cstep E. eapply bindC_eq; [exact E2| |eassumption]. cstep E. eapply bindC_eq; [exact E3| |eassumption]. destruct a2 as [[]|]; [|apply (IH _ _ _ _ _ _ E); lia|exact E].
      cstep E. eapply bindC_eq; [exact E4| |eassumption]. apply (IH _ _ _ _ _ _ E). lia.
Qed.

(** The counter is at least the number of entries written to the cache. *)
Definition written (m : minim) : nat := length (mi_clean m).
Lemma set_written m i b m' k : cache_set_n m i b = Ret (m', k) -> written m' = written m + 1 /\ k = 1.
Proof.
  unfold cache_set_n. intro E. apply units_ret in E as [E ->]. unfold cache_set in E. destruct (vset _ _ _); cbn [bind] in E; try discriminate. inversion E; subst. unfold written. cbn [mi_clean]. rewrite app_length. cbn. lia.
Qed.
Lemma poison_written st : forall m m' k, poison_stack_n m st = Ret (m', k) -> written m' = written m + length st /\ k = length st.
Proof.
  unfold poison_stack_n. induction st as [|x st IH]; intros m m' k E; cbn [foldC] in E; [inversion E; subst; cbn; lia|].
  cstep E. apply set_written in E0 as [A ->]. apply IH in E as [B ->]. cbn [length]. lia.
Qed.
Lemma iter_written p fuel : forall m top stack b m' k, redundant_iter_n fuel m p top stack = Ret ((b, m'), k) -> written m' <= written m + k.
Proof.
  induction fuel as [|fuel IH]; intros m [ti tl] stack b m' k E; cbn [redundant_iter_n] in E; [discriminate|].
  destruct tl as [|l rest].
  - cstep E. apply set_written in E0 as [A ->]. destruct (rev stack) as [|nt rs]; [inversion E; subst; lia|]. apply IH in E. lia.
  - cstep E. cstep E. destruct a0 as [[]|].
    + apply IH in E. lia.
    + cstep E. cstep E. inversion E; subst. apply set_written in E2 as [A ->]. apply poison_written in E3 as [B ->]. lia.
    + cstep E. cstep E. cstep E. destruct a2 as [[]|].
      * cstep E. apply set_written in E5 as [A ->]. apply IH in E. lia.
      * apply IH in E. lia.
      * cstep E. cstep E. cstep E. inversion E; subst. apply set_written in E5 as [A ->]. apply set_written in E6 as [B ->]. apply poison_written in E7 as [C ->]. lia.
Qed.
Lemma rec_written p fuel : forall m i depth b m' k, redundant_rec_n fuel m i p depth = Ret ((b, m'), k) -> written m' <= written m + k.
Proof.
  induction fuel as [|fuel IH]; intros m i depth b m' k E; cbn [redundant_rec_n] in E; [discriminate|].
  cstep E. cstep E. cstep E. destruct a1 as [[]|].
  - cstep E. inversion E; subst. apply set_written in E3 as [A ->]. lia.
  - destruct (Nat.ltb MAX_DEPTH depth); [apply iter_written in E; lia|].
    assert (X : forall ls m b m' k, (fix children (m : minim) (lits : list lit) {struct lits} : res ((bool * minim) * nat) :=
              match lits with
              | [] => let+ m1 := cache_set_n m i true in Ret ((true, m1), 0)
              | l :: rest =>
                  let+ ri := units 0 (trail_index (p_trail p) l) in
                  let+ c := cached_n m ri (p_trail p) in
                  let+ (b, m1) :=
                    match c with
                    | Some b => Ret ((b, m), 0)
                    | None => redundant_rec_n fuel m ri p (depth + 1)
                    end in
                  if b then children m1 rest
                  else let+ m2 := cache_set_n m1 i false in Ret ((false, m2), 0)
              end) m ls = Ret ((b, m'), k) -> written m' <= written m + k).
    { induction ls as [|l ls IHl]; intros m0 b0 m0' k0' H; cbn beta iota in H.
      - cstep H. inversion H; subst. apply set_written in E3 as [A ->]. lia.
      - cstep H. cstep H. apply bindC_ret in H as ([bb m1] & q1 & q2 & EE & H & Eq). assert (Y : written m1 <= written m0 + q1).
        { destruct a2 as [x|]; [inversion EE; subst; lia|]. apply IH in EE. lia. }
        destruct bb; [apply IHl in H; lia|]. cstep H. inversion H; subst. apply set_written in E5 as [A ->]. lia. }
    apply X in E. lia.
  - cstep E. inversion E; subst. apply set_written in E3 as [A ->]. lia.
Qed.

(** ** Conflict analysis *)
Lemma foldC_units {A S} (g : S -> A -> res S) l : forall s s' k, foldC (fun s a => units 1 (g s a)) l s = Ret (s', k) -> k = length l /\ foldM g l s = Ret s'.
Proof.
  induction l as [|x l IH]; intros s s' k E; cbn [foldC foldM] in *; [inversion E; subst; auto|].
  ustep E. apply IH in E as [A1 B1]. subst. rewrite E0. cbn [bind length]. split; auto.
Qed.
Lemma add_derived t st l st' : add_literal t st l = Ret st' -> length (an_derived (fst st')) <= length (an_derived (fst st)) + 1.
Proof.
  destruct st as [an cb]. unfold add_literal. cbn [fst]. intro E. apply bind_ret in E as (i & _ & E). apply bind_ret in E as (s & _ & E). destruct (Nat.eqb _ 0); [inversion E; subst; cbn; lia|].
  apply bind_ret in E as (old & _ & E). apply bind_ret in E as (cur & _ & E). destruct old; [inversion E; subst; cbn; lia|]. apply bind_ret in E as (cb1 & _ & E).
  destruct (Nat.eqb _ _); inversion E; subst; cbn [fst an_set_count an_set_derived an_set_current an_derived]; [lia|]. rewrite app_length. cbn. lia.
Qed.
Lemma adds_derived t ls : forall st st' k, add_literals_n t ls st = Ret (st', k) -> k = length ls /\ length (an_derived (fst st')) <= length (an_derived (fst st)) + k.
Proof.
  unfold add_literals_n. induction ls as [|l ls IH]; intros st st' k E; cbn [foldC] in E; [inversion E; subst; cbn; lia|].
  ustep E. apply IH in E as [-> B]. apply add_derived in E0. cbn [length]. lia.
Qed.
(** The scan goes back to the position of the last literal of the clause, or to the
    beginning. *)
Lemma uip_fair n : forall p an cb p' an' cb' k, uip_loop_n n p an cb = Ret ((p', an', cb'), k) ->
  length (an_derived an') <= length (an_derived an) + k /\
  (n <= k \/ exists i s d, n <= i + k /\ nth_error (t_steps (p_trail p)) i = Some s /\ an_derived an' = d ++ [lnot (s_lit s)]).
Proof.
  induction n as [|n IH]; intros p an cb p' an' cb' k E; cbn [uip_loop_n] in E; [inversion E; subst; split; lia|].
  ustep E. ustep E. destruct a; cbn [negb] in E.
  - ustep E. destruct (Nat.ltb _ _); [|discriminate]. destruct (Nat.eqb _ 0).
    + cstep E. inversion E; subst. cbn [an_set_derived an_derived an_set_current an_set_count] in *. rewrite app_length. cbn [length]. split; [lia|]. right.
      exists n, a, (an_derived an). split; [lia|]. split; [|reflexivity]. unfold vget in E2. destruct (nth_error _ _); inversion E2; subst; reflexivity.
    + cstep E. destruct a1 as [p1 an3]. ustep E. cstep E. destruct a2 as [an4 cb4]. apply adds_derived in E5 as [-> B]. cbn [fst] in B.
      assert (X : an_derived an3 = an_derived an /\ p_trail p1 = p_trail p).
      { clear - E3. destruct (s_reason a); try (inversion E3; subst; split; reflexivity). cstep E3. destruct a1. inversion E3; subst. split; reflexivity. }
      destruct X as [X1 X2]. rewrite X1 in B. apply IH in E as [C D]. split; [lia|]. destruct D as [D|(i & s & d & D1 & D2 & D3)]; [left; lia|right]. exists i, s, d. split; [lia|]. rewrite <- X2. auto.
  - apply IH in E as [C D]. cbn [an_set_current an_derived] in C. split; [lia|]. destruct D as [D|(i & s & d & D1 & D2 & D3)]; [left; lia|right]. exists i, s, d. split; [lia|]. auto.
Qed.
Lemma glue_fair t ls tmp r k : compute_glue_n t ls tmp = Ret (r, k) -> k = 2 * length ls.
Proof.
  unfold compute_glue_n. intro E. cstep E. destruct a as [g t1]. apply foldC_units in E0 as [-> _]. cstep E. apply foldC_units in E0 as [-> _]. inversion E; subst. lia.
Qed.
Lemma derive_fair an p c cb p' an' cb' k : derive_1uip_clause_n an p c cb = Ret ((p', an', cb'), k) ->
  length (an_derived an') <= k /\
  (length (t_steps (p_trail p)) <= k \/ exists i s d, length (t_steps (p_trail p)) <= i + k /\ nth_error (t_steps (p_trail p)) i = Some s /\ an_derived an' = d ++ [lnot (s_lit s)]).
Proof.
  unfold derive_1uip_clause_n. intro E. cstep E. destruct a as [p1 an2]. ustep E. cstep E. destruct a0 as [an3 cb3]. apply adds_derived in E2 as [-> B]. cbn [fst] in B.
  cstep E. destruct a0 as [[p2 an4] cb4]. destruct (Nat.eqb (an_count an4) 0); [|discriminate]. inversion E; subst. apply uip_fair in E2 as [C D].
  assert (X : an_derived an2 = [] /\ p_trail p1 = p_trail p).
  { clear - E0. destruct c; try (inversion E0; subst; split; reflexivity). cstep E0. destruct a. inversion E0; subst. split; reflexivity. }
  destruct X as [X1 X2]. rewrite X1, X2 in *. cbn [length] in B. split; [lia|]. destruct D as [D|(i & s & d & D1 & D2 & D3)]; [left; lia|right]. exists i, s, d. split; [lia|]. auto.
Qed.

(** ** Garbage collection and reductions *)
Lemma mapC_units {A B} (g : A -> res B) l : forall r k, mapC (fun a => units 1 (g a)) l = Ret (r, k) -> k = length l.
Proof.
  induction l as [|x l IH]; intros r k E; cbn [mapC] in E; [inversion E; subst; auto|]. ustep E. cstep E. apply IH in E1. inversion E; subst. cbn [length]. lia.
Qed.
Lemma scanC_keep {T S} (g : S -> T -> res (S * ms_action T)) l : (forall s x s' y, g s x = Ret (s', y) -> forall z, y <> MSKeepStop z) ->
  forall s r k, scanC (fun s x => units 1 (g s x)) l s = Ret (r, k) -> k = length l.
Proof.
  intro H. induction l as [|x l IH]; intros s r k E; cbn [scanC] in E; [inversion E; subst; auto|]. cstep E. destruct a as [s1 [y| |y]]; apply units_ret in E0 as [E0 ->].
  - cstep E. destruct a as [s2 r']. apply IH in E1. inversion E; subst. cbn [length]. lia.
  - apply IH in E. cbn [length]. lia.
  - exfalso. exact (H _ _ _ _ E0 y eq_refl).
Qed.
Definition entries (w : watches) : nat := list_sum (map (@length watch) (ws_by_lit w)).
Lemma watches_fair dbg w g w' k : watches_update_refs_n dbg w g = Ret (w', k) -> k = length (ws_by_lit w) + entries w.
Proof.
  unfold watches_update_refs_n, dassert. destruct (dbg && negb (ws_enabled w)); [discriminate|]. intro E. cstep E. inversion E; subst. rewrite Nat.add_0_r. clear E. unfold entries.
  revert a k0 E0. induction (ws_by_lit w) as [|l ls IH]; intros r k E; cbn [mapC] in E; [inversion E; subst; auto|].
  cstep E. cstep E0. apply units_ret in E1 as [_ ->]. cstep E0. destruct a1 as [u wl]. inversion E0; subst. cstep E. apply IH in E2. inversion E; subst.
  apply scanC_keep in E1; [|intros s x s' y Q z ->; destruct (gc_update g (w_clause x)) as [[?|]| |]; inversion Q]. cbn [length map list_sum fold_right]. unfold list_sum in *. lia.
Qed.
Lemma arena_fair H a a' g k : collect_garbage_n H a = Ret ((a', g), k) -> length (a_buffer a') <= k.
Proof.
  unfold collect_garbage_n. intro E. cstep E. cstep E. destruct a1 as [[[a1 wo] ex] gs]. inversion E; subst. cbn [a_buffer]. destruct (gc_fair _ _ _ _ _ _ _ _ _ _ _ _ 0 E1) as [_ B]. rewrite firstn_length. lia.
Qed.
Lemma now_fair dbg p p' k : collect_garbage_now_n dbg p = Ret (p', k) ->
  length (a_buffer (p_long p')) + length (t_steps (p_trail p)) + length (ws_by_lit (p_watches p)) + entries (p_watches p) <= k.
Proof.
  unfold collect_garbage_now_n. destruct (_ <=? _)%N; [|discriminate]. intro E. cstep E. destruct a as [l g]. apply arena_fair in E0. cstep E. unfold trail_update_refs_n in E1. cstep E1. apply mapC_units in E2. inversion E1; subst.
  cstep E. apply watches_fair in E2. inversion E; subst. cbn [p_set_watches p_set_trail p_set_long p_long]. lia.
Qed.

(** The steps of a proof, and their literals *)
Definition proof_volume (cx : ctx) : nat :=
  match cx_proof cx with Some log => list_sum (map (fun s => match s with PAdd c => 1 + length c | PDelete c => 1 + length c end) log) | None => 0 end.
Lemma delete_fair st x st' k : delete_candidate_n st x = Ret (st', k) -> proof_volume (fst st') <= proof_volume (fst st) + k.
Proof.
  destruct st as [cx a]. unfold delete_candidate_n. destruct (Nat.ltb _ _); [|discriminate]. intro E. cstep E. ustep E. inversion E; subst. cbn [fst]. unfold proof_volume at 2.
  cbn [cx_with cx_proof] in E0. destruct (cx_proof cx) as [log|] eqn:Ep.
  - ustep E0. apply units_ret in E0 as [E0 ->]. inversion E0; subst. unfold proof_volume, cx_log, cx_with. cbn [cx_proof]. rewrite Ep. rewrite map_app, list_sum_app. cbn [map list_sum fold_right]. lia.
  - inversion E0; subst. unfold proof_volume. cbn [cx_with cx_proof]. rewrite Ep. lia.
Qed.
Lemma deletes_fair xs : forall st st' k, foldC delete_candidate_n xs st = Ret (st', k) -> proof_volume (fst st') <= proof_volume (fst st) + k /\ length xs <= k.
Proof.
  induction xs as [|x xs IH]; intros st st' k E; cbn [foldC] in E; [inversion E; subst; cbn; lia|]. cstep E. pose proof (delete_fair _ _ _ _ E0). apply IH in E as [A B].
  assert (1 <= k0). { destruct st as [cx ar]. unfold delete_candidate_n in E0. destruct (Nat.ltb _ _); [|discriminate]. cstep E0. ustep E0. lia. }
  cbn [length]. lia.
Qed.

(** ** C100 *)
(** The loop that moves an entry towards the root takes at most half as many rounds as
    were counted, rounded up: a round counts a comparison and an exchange.  The loop that
    moves an entry towards the leaves takes at most one round more than half the count.
    To find a decision, at most two entries more are removed than the count. *)
Theorem queue_fair :
  (forall h pos h' k, move_towards_root_n h pos = Ret (h', k) -> exists v, value_at h pos = Ret v /\ root_loop ((k + 1) / 2) h v pos = Ret h') /\
  (forall h pos h' k, move_towards_leaves_n h pos = Ret (h', k) -> exists v, value_at h pos = Ret v /\ leaves_loop (k / 2 + 1) h v pos = Ret h') /\
  (forall v vals o v' k, pop_decision_var_q v vals = Ret ((o, v'), k) -> pop_loop (k + 2) (vs_activity v) vals = Ret (o, vs_activity v')).
Proof.
  split; [|split].
  - intros h pos h' k E. unfold move_towards_root_n in E. ustep E. exists a. split; auto. apply (root_fair _ _ _ _ _ _ _ E). apply Nat.div_le_mono; lia.
  - intros h pos h' k E. unfold move_towards_leaves_n in E. ustep E. exists a. split; auto. apply (leaves_fair _ _ _ _ _ _ (k / 2 + 1)) in E; [|cbn [Nat.add] in Ek; subst; lia].
    exact (erase_of _ _ _ _ (er_leavesl _ _ _ _) E).
  - intros v vals o v' k E. unfold pop_decision_var_q in E. cstep E. destruct a as [o1 h1]. inversion E; subst. cbn [vs_activity]. apply (pop_loop_fair _ _ _ _ _ (k0 + 0 + 2)) in E0; [|lia].
    exact (erase_of _ _ _ _ (er_popl _ _ _) E0).
Qed.

(** When a literal is propagated without conflict, the count is at least the number of
    binary clauses and watches visited, which are all there are.  In each of the three
    loops the number of rounds is at most the count: the loop over the first [k] elements
    has the same result. *)
Theorem propagation_fair dbg :
  (forall p l p' k bs wl, propagate_literal_n dbg p l = Ret ((p', None), k) -> bin_containing (p_binary p) (lnot l) = Ret bs ->
     nth_error (ws_by_lit (p_watches p)) (cidx (lnot l)) = Some wl -> length bs + length wl <= k) /\
  (forall p cl others p' r k, binary_loop_n dbg p cl others = Ret ((p', r), k) ->
     binary_loop dbg p cl (firstn k others) = Ret (p', r) /\ (r = None -> k = length others)) /\
  (forall w0 v s s' v' k, watch_loop_n dbg w0 v s = Ret ((s', v'), k) ->
     exists rounds v1, rounds <= k /\ scan_list (watch_body dbg w0) (firstn rounds v) s = Ret (s', v1) /\ v' = v1 ++ skipn rounds v /\ (snd s' = None -> rounds = length v)) /\
  (forall vals ls len n pos r k, search_loop_n vals ls len n pos = Ret (r, k) -> search_loop vals ls len k pos = Ret r /\ (snd r = None -> k = n)).
Proof.
  split; [|split; [|split]].
  - intros p l p' k bs wl E EB EW. unfold propagate_literal_n in E. cstep E. destruct a as [p1 r]. unfold propagate_binary_clauses_n in E0. ustep E0. rewrite E1 in EB. injection EB as ->.
    destruct r as [c|]; [inversion E|]. pose proof (binary_fair _ _ _ _ _ _ _ E0) as (_ & _ & C). specialize (C eq_refl).
    assert (X : p_watches p1 = p_watches p).
    { clear - E0. revert p p1 k3 E0. induction bs as [|o bs IH]; intros p p1 k3 E; cbn [binary_loop_n] in E; [inversion E; subst; auto|]. ustep E. destruct a; [eapply IH; eauto|]. ustep E. destruct a; [inversion E|].
      cstep E. destruct a as [v tr]. apply IH in E. rewrite E. reflexivity. }
    unfold propagate_long_clauses_n in E. cstep E. destruct a as [wl0 ws]. apply units_ret in E2 as [E2 ->]. cstep E. destruct a as [[p2 res] wl1]. ustep E. inversion E; subst.
    apply watch_fair in E3 as (n & v1 & A & _ & _ & _ & D). specialize (D eq_refl). subst n. rewrite X in E2. unfold watches_take, dassert in E2. destruct (dbg && _); [discriminate|]. unfold vget in E2. rewrite EW in E2. cbn [bind] in E2.
    destruct (vset _ _ _); cbn [bind] in E2; try discriminate. injection E2 as -> _. lia.
  - intros p cl others p' r k E. apply binary_fair in E as (_ & A & B). auto.
  - intros w0 v s s' v' k E. apply watch_fair in E as (n & v1 & A & _ & B). exists n, v1. auto.
  - intros vals ls len n pos r k E. apply search_fair in E as (_ & A & B). split; auto. exact (erase_of _ _ _ _ (Proof_Work.er_search _ _ _ _ _) A).
Qed.

(** The search for the next clause, the binary search and the main loop of garbage
    collections take at most one round more than the count.  A collection counts at least
    the words of the memory it leaves, the assignments, the watch lists and the watches. *)
Theorem collect_fair H :
  (forall fuel buf pos r k, find_clause_loop_n H fuel buf pos = Ret (r, k) -> find_clause_loop H (k + 1) buf pos = Ret r) /\
  (forall fuel gaps c lo size hi r k, gc_search_n fuel gaps c lo size hi = Ret (r, k) -> gc_search (k + 1) gaps c lo size hi = Ret r) /\
  (forall fuel a rd wo ex gaps r k, gc_loop_n H fuel a rd wo ex gaps = Ret (r, k) -> gc_loop H (k + 1) a rd wo ex gaps = Ret r) /\
  (forall dbg p p' k, collect_garbage_now_n dbg p = Ret (p', k) ->
     length (a_buffer (p_long p')) + length (t_steps (p_trail p)) + length (ws_by_lit (p_watches p)) + entries (p_watches p) <= k).
Proof.
  split; [|split; [|split]].
  - intros fuel buf pos r k E. apply (find_fair _ _ _ _ _ _ (k + 1)) in E; [|lia]. exact (erase_of _ _ _ _ (er_find _ _ _ _) E).
  - intros fuel gaps c lo size hi r k E. apply (lookup_fair _ _ _ _ _ _ _ _ (k + 1)) in E; [|lia]. exact (erase_of _ _ _ _ (Prop_GcCost.er_search _ _ _ _ _ _) E).
  - intros fuel a rd wo ex gaps [[[a' wo'] ex'] g'] k E. destruct (gc_fair _ _ _ _ _ _ _ _ _ _ _ _ (k + 1) E) as [A _]. exact (erase_of _ _ _ _ (er_gc_loop _ _ _ _ _ _ _) (A ltac:(lia))).
  - intros dbg p p' k. apply now_fair.
Qed.

(** A reduction counts at least two for every assignment, one for every clause it looks at
    and every one it deletes, and every literal of the steps of the proof it writes. *)
Theorem reduce_fair select :
  (forall cx se cx' se' k, reduce_n select cx se = Ret ((cx', se'), k) -> 2 * length (t_steps (p_trail (se_prop se))) + proof_volume cx' <= proof_volume cx + k) /\
  (forall fuel a it cs r k, candidates_loop_n fuel a it cs = Ret (r, k) -> candidates_loop (k + 1) a it cs = Ret r) /\
  (forall xs st st' k, foldC delete_candidate_n xs st = Ret (st', k) -> length xs <= k).
Proof.
  split; [|split].
  - intros cx se cx' se' k E. unfold reduce_n in E. cstep E. unfold protect_clauses_n in E0. apply foldC_units in E0 as [-> _]. cstep E. destruct a0 as [a2 cs]. apply bindC_ret in E as ([cx2 a3] & q1 & q2 & EE & E & Eq). cstep E. unfold protect_clauses_n in E1. apply foldC_units in E1 as [-> _]. inversion E; subst.
    assert (X : proof_volume cx' <= proof_volume cx + q1).
    { destruct cs as [|c cs]; [inversion EE; subst; unfold bump_reductions, proof_volume, cx_with; cbn [cx_proof]; lia|]. ustep EE. apply deletes_fair in EE as [Y _]. cbn [fst] in Y.
      change (proof_volume (bump_reductions cx)) with (proof_volume cx) in Y. lia. }
    lia.
  - intros fuel a it cs r k E. apply (candidates_fair _ _ _ _ _ _ (k + 1)) in E; [|lia]. exact (erase_of _ _ _ _ (er_candidates _ _ _ _) E).
  - intros xs st st' k E. apply (deletes_fair _ _ _ _ E).
Qed.

(** Deriving a clause counts at least its literals and the assignments from the last one
    back to that of its asserting literal. *)
Theorem analysis_fair an p c cb p' an' cb' k : derive_1uip_clause_n an p c cb = Ret ((p', an', cb'), k) ->
  length (an_derived an') <= k /\
  (length (t_steps (p_trail p)) <= k \/
   exists i s d, length (t_steps (p_trail p)) <= i + k /\ nth_error (t_steps (p_trail p)) i = Some s /\ an_derived an' = d ++ [lnot (s_lit s)]).
Proof. apply derive_fair. Qed.

(** The search for redundant literals counts at least the entries it writes to its cache,
    and its loop takes at most one round more than the count. *)
Theorem minimize_fair p :
  (forall fuel m i depth b m' k, redundant_rec_n fuel m i p depth = Ret ((b, m'), k) -> length (mi_clean m') <= length (mi_clean m) + k) /\
  (forall fuel m top stack r k, redundant_iter_n fuel m p top stack = Ret (r, k) -> redundant_iter (k + 1) m p top stack = Ret r) /\
  (forall m t ls b r k, lookahead_n m t ls b = Ret (r, k) -> lookahead m t (firstn k ls) b = Ret r /\ (r <> None -> k = length ls)).
Proof.
  split; [|split].
  - intros fuel m i depth b m' k. apply rec_written.
  - intros fuel m top stack r k E. apply (iter_fair _ _ _ _ _ _ _ (k + 1)) in E; [|lia]. exact (erase_of _ _ _ _ (er_iter _ _ _ _ _) E).
  - intros m t ls b r k E. apply lookahead_fair in E as (_ & A & B). auto.
Qed.

(** ** Examples *)
(** Six units are counted when the last entry of eight moves to the root: three rounds. *)
Example queue_fair_example :
  let h := mkHeap (upd (h_values heap8) 0 9%N) (h_pos heap8) (h_heap heap8) in
  match nth_error (h_pos h) 0 with
  | Some (Some pos) => match move_towards_root_n h pos with Ret (_, 6) => root_loop 2 h 9 pos = OutOfFuel | _ => False end
  | _ => False
  end.
Proof. vm_compute. reflexivity. Qed.
(** A literal of the pigeon hole formula with binary clauses and a watch is propagated. *)
Example propagation_fair_example : match propagate_literal_n true (se_prop (snd state6)) 3 with
  | Ret ((p', None), k) => k = 7 /\
      match bin_containing (p_binary (se_prop (snd state6))) (lnot 3), nth_error (ws_by_lit (p_watches (se_prop (snd state6)))) (cidx (lnot 3)) with
      | Ret bs, Some wl => (length bs, length wl) = (5, 1) | _, _ => False end
  | _ => False
  end.
Proof. vm_compute. auto. Qed.
(** The reduction after 90 steps (see Prop_ReduceCost.v) and a collection after it *)
Example reduce_fair_example : match reduce_n select_sort (fst state90) (snd state90) with
  | Ret ((cx, se), k) => (k, proof_volume cx - proof_volume (fst state90)) = (125, 12) /\
      match collect_garbage_now_n true (se_prop se) with
      | Ret (p', k') => (k', length (a_buffer (p_long p')), entries (p_watches (se_prop se))) = (654, 451, 88) | _ => False end
  | _ => False
  end.
Proof. vm_compute. auto. Qed.
(** The conflict of Prop_Cost.v and Prop_DeriveCost.v *)
Example analysis_fair_example :
  let se := sta_search (so_state (at_step min3 2)) in
  match propagate true (so_ctx (at_step min3 2)) (se_prop se) with
  | Ret (_, p1, Some c) =>
      match derive_1uip_clause_n (se_analysis se) p1 c (search_cb se) with
      | Ret ((p2, an2, _), k) => (k, an_derived an2, length (t_steps (p_trail p1))) = (21, [2; 1; 7]%N, 4) /\
          match minimize_derived_clause_n an2 p2 with Ret (_, k') => 0 < k' | _ => False end
      | _ => False
      end
  | _ => False
  end.
Proof. vm_compute. split; [reflexivity|]. lia. Qed.

Print Assumptions queue_fair.
Print Assumptions propagation_fair.
Print Assumptions collect_fair.
Print Assumptions reduce_fair.
Print Assumptions analysis_fair.
Print Assumptions minimize_fair.
