(** C31: the utilization of an arena whose clauses may be deleted several times. *)
From Coq Require Import NArith List Bool Arith Lia ZifyN ZifyNat ZifyBool.
From Verif Require Import Model_Base Model_Lit Model_Header Model_Arena Drivers_Arena Proof_Base Proof_Arena Proof_ArenaHist Prop_Arena.
Import ListNotations.

(** ** Specification *)
(** [ahist] with the number of times a clause was deleted that was deleted already,
    since the last garbage collection *)
Inductive ahist_again (HL : nat) (hook : list N -> nat -> nat -> list N) : nat -> arena -> list entry -> Prop :=
| an_new : ahist_again HL hook 0 arena_empty []
| an_add n a es h l c a' : ahist_again HL hook n a es -> length h = HL -> Forall clear h -> Forall clear l ->
    arena_add_clause a h l = Ret (Some c, a') -> ahist_again HL hook n a' (es ++ [(c, h, l)])
| an_add_full n a es h l a' : ahist_again HL hook n a es -> arena_add_clause a h l = Ret (None, a') -> ahist_again HL hook n a' es
| an_set_header n a es c h l h' a' : ahist_again HL hook n a es -> In (c, h, l) es -> length h' = HL -> Forall clear h' ->
    arena_set_header HL a c h' = Ret a' -> ahist_again HL hook n a' (es_upd c h' l es)
| an_set_lits n a es c h l l' a' : ahist_again HL hook n a es -> In (c, h, l) es -> length l' = length l -> Forall clear l' ->
    arena_set_lits HL a c l' = Ret a' -> ahist_again HL hook n a' (es_upd c h l' es)
| an_shrink n a es c h l m a' : ahist_again HL hook n a es -> In (c, h, l) es -> 1 <= m <= length l ->
    arena_shrink_clause HL hook a c m = Ret a' -> ahist_again HL hook n a' (es_upd c (hook h (length l) m) (firstn m l) es)
| an_delete n a es c h l a' : ahist_again HL hook n a es -> In (c, h, l) es ->
    arena_delete_clause HL a c = Ret a' ->
    ahist_again HL hook (match l with [] => S n | _ => n end) a' (es_upd c h [] es)
| an_collect n a es a' gaps es' : ahist_again HL hook n a es -> (N.of_nat (length (a_buffer a)) < 4294967296)%N ->
    collect_garbage HL a = Ret (a', gaps) ->
    Forall2 (fun e e' => gc_update gaps (e_ref e) = Ret (Some (e_ref e')) /\ e_hdr e' = e_hdr e /\ e_lits e' = e_lits e)
      (filter e_live es) es' ->
    ahist_again HL hook 0 a' es'.

(** All histories are counted. *)
Theorem again_counted HL hook a es : ahist true HL hook a es <-> exists n, ahist_again HL hook n a es.
Proof.
  split.
  - induction 1; repeat match goal with H : exists n, _ |- _ => destruct H as [n0 H] end; eexists; try (econstructor; eauto; fail).
  - intros [n H]. induction H; try (econstructor; eauto; fail).
    eapply ah_delete; eauto. discriminate.
Qed.

(** ** The same arena with more garbage *)
Lemma nodup_ref_eq (es : list entry) e e' : NoDup (map e_ref es) -> In e es -> In e' es -> e_ref e = e_ref e' -> e = e'.
Proof.
  induction es as [|x es IH]; [easy|]. cbn [map In]. intros N Hi Hi' E. inversion N as [|? ? Nx N']; subst. destruct Hi as [->|Hi], Hi' as [->|Hi']; auto.
  - exfalso. apply Nx. rewrite E. now apply in_map.
  - exfalso. apply Nx. rewrite <- E. now apply in_map.
Qed.
Definition gplus (k : nat) (a : arena) : arena := mkArena (a_buffer a) (a_garbage a + k).
Lemma gp_loop HL k f : forall a r w e g, gc_loop HL f (gplus k a) r w e g = (let* (a', w', e', g') := gc_loop HL f a r w e g in Ret (gplus k a', w', e', g')).
Proof.
  induction f as [|f IH]; intros a r w e g; [reflexivity|]. cbn [gc_loop]. destruct r as [c|]; [|reflexivity].
  change (next_clause HL (gplus k a) (Some c)) with (next_clause HL a (Some c)). destruct (next_clause HL a (Some c)) as [rd| |]; cbn [bind]; try reflexivity.
  change (clause_len HL (gplus k a) c) with (clause_len HL a c). destruct (clause_len HL a c) as [len| |]; cbn [bind]; try reflexivity.
  change (a_buffer (gplus k a)) with (a_buffer a). destruct (read_words _ _ _) as [ws| |]; cbn [bind]; try reflexivity.
  apply (IH (mkArena (write_words (a_buffer a) w ws) (a_garbage a))).
Qed.
Lemma gp_collect HL k a : collect_garbage HL (gplus k a) = collect_garbage HL a.
Proof.
  unfold collect_garbage. change (next_clause HL (gplus k a) None) with (next_clause HL a None). destruct (next_clause HL a None) as [rd| |]; cbn [bind]; try reflexivity.
  change (a_buffer (gplus k a)) with (a_buffer a). rewrite gp_loop. destruct (gc_loop _ _ _ _ _ _ _) as [[[[a1 w] e] g]| |]; cbn [bind]; reflexivity.
Qed.
Lemma again_sim HL hook n a es : hook_ok HL hook -> ahist_again HL hook n a es -> exists a0, ahist false HL hook a0 es /\ a = gplus (n * (HL + 1)) a0.
Proof.
  intro Hk. induction 1 as [|n a es h l c a' H (a0 & IH & ->) Lh Ch Cl E|n a es h l a' H (a0 & IH & ->) E|n a es c h l h' a' H (a0 & IH & ->) Hi Lh Ch E
    |n a es c h l l' a' H (a0 & IH & ->) Hi Ll Cl E|n a es c h l m a' H (a0 & IH & ->) Hi Hm E|n a es c h l a' H (a0 & IH & ->) Hi E|n a es a' gaps es' H (a0 & IH & ->) Hb E F2].
  - exists arena_empty. split; [constructor|]. reflexivity.
  - unfold arena_add_clause in E. cbn [gplus a_buffer a_garbage] in E. destruct (negb _) eqn:E1; [|discriminate]. destruct (_ || _) eqn:E2; [discriminate|]. injection E as <- <-.
    eexists. split; [eapply ah_add; [exact IH|exact Lh|exact Ch|exact Cl|unfold arena_add_clause; rewrite E1, E2; reflexivity]|]. reflexivity.
  - unfold arena_add_clause in E. cbn [gplus a_buffer a_garbage] in E. destruct (negb _) eqn:E1; [|discriminate]. destruct (_ || _) eqn:E2; [|discriminate]. injection E as <-.
    exists a0. split; [|reflexivity]. exact IH.
  - unfold arena_set_header in E. change (clause_len HL (gplus _ a0) c) with (clause_len HL a0 c) in E. destruct (clause_len HL a0 c) as [len| |] eqn:E1; cbn [bind] in E; try discriminate. injection E as <-.
    eexists. split; [eapply ah_set_header; [exact IH|exact Hi|exact Lh|exact Ch|unfold arena_set_header; rewrite E1; reflexivity]|]. reflexivity.
  - unfold arena_set_lits in E. change (clause_len HL (gplus _ a0) c) with (clause_len HL a0 c) in E. destruct (clause_len HL a0 c) as [len| |] eqn:E1; cbn [bind] in E; try discriminate. destruct (Nat.eqb _ _) eqn:E2; [|discriminate]. injection E as <-.
    eexists. split; [eapply ah_set_lits; [exact IH|exact Hi|exact Ll|exact Cl|unfold arena_set_lits; rewrite E1; cbn [bind]; rewrite E2; reflexivity]|]. reflexivity.
  - unfold arena_shrink_clause in E. destruct (negb _) eqn:E0; [|discriminate]. change (clause_len HL (gplus _ a0) c) with (clause_len HL a0 c) in E. destruct (clause_len HL a0 c) as [len| |] eqn:E1; cbn [bind] in E; try discriminate. destruct (Nat.leb m len) eqn:E2; [|discriminate].
    cbn [gplus a_buffer a_garbage] in E. destruct (read_words _ _ _) as [hw| |] eqn:E3; cbn [bind] in E; try discriminate.
    assert (S0 : arena_shrink_clause HL hook a0 c m = Ret (mkArena (write_words (write_words (a_buffer a0) (c + HL) [N.lor LEN_MARKER (to_u32 (N.of_nat m))]) c (hook hw len m)) (a_garbage a0 + (len - m)))).
    { unfold arena_shrink_clause. rewrite E0, E1. cbn [bind]. rewrite E2. cbn [a_buffer a_garbage]. rewrite E3. reflexivity. }
    assert (E' : a' = gplus (n * (HL + 1)) (mkArena (write_words (write_words (a_buffer a0) (c + HL) [N.lor LEN_MARKER (to_u32 (N.of_nat m))]) c (hook hw len m)) (a_garbage a0 + (len - m)))).
    { unfold gplus. cbn [a_buffer a_garbage]. replace (a_garbage a0 + (len - m) + n * (HL + 1)) with (a_garbage a0 + n * (HL + 1) + (len - m)) by lia. congruence. }
    eexists. split; [eapply ah_shrink; [exact IH|exact Hi|exact Hm|exact S0]|exact E'].
  - pose proof (ahist_inv false HL hook _ _ Hk IH) as A. pose proof (AR_len HL _ _ _ _ _ _ A Hi) as Len.
    unfold arena_delete_clause in E. change (clause_len HL (gplus _ a0) c) with (clause_len HL a0 c) in E. rewrite Len in E. cbn [bind gplus a_buffer a_garbage] in E.
    destruct l as [|x l].
    + cbn [length Nat.ltb Nat.leb] in E. injection E as <-. exists a0. split.
      * replace (es_upd c h [] es) with es; [exact IH|]. symmetry. unfold es_upd. erewrite map_ext_in; [apply map_id|]. intros e He. cbv beta. destruct (Nat.eqb_spec (e_ref e) c) as [Q|Q]; [|reflexivity].
        symmetry. apply (nodup_ref_eq es); auto. apply (AR_nodup HL _ _ _ A).
      * unfold gplus. cbn [a_buffer a_garbage]. f_equal. lia.
    + cbn [length Nat.ltb Nat.leb] in E. injection E as <-. eexists. split; [eapply ah_delete; [exact IH|exact Hi|discriminate|unfold arena_delete_clause; rewrite Len; cbn [bind length Nat.ltb Nat.leb]; reflexivity]|].
      unfold gplus. cbn [a_buffer a_garbage]. f_equal. lia.
  - rewrite gp_collect in E. exists a'. split; [eapply ah_collect; eauto|]. unfold gplus. rewrite Nat.add_0_r. destruct a'. reflexivity.
Qed.

(** ** C31 *)
(** [utilization] reports the words of live clauses minus one header and length word
    for every repeated deletion, and underflows exactly if that is negative. *)
Theorem utilization_again HL hook n a es : hook_ok HL hook -> ahist_again HL hook n a es ->
  utilization a = if n * (HL + 1) <=? used_words HL es then Ret (length (a_buffer a), used_words HL es - n * (HL + 1)) else Panic PArith.
Proof.
  intros Hk H. destruct (again_sim _ _ _ _ _ Hk H) as (a0 & H0 & ->). pose proof (utilization_exact_partial _ _ _ _ Hk H0) as U. unfold utilization in *. cbn [gplus a_buffer a_garbage].
  destruct (Nat.leb_spec (a_garbage a0) (length (a_buffer a0))) as [G|G]; [|discriminate]. injection U as U. rewrite <- U.
  destruct (Nat.leb_spec (a_garbage a0 + n * (HL + 1)) (length (a_buffer a0))), (Nat.leb_spec (n * (HL + 1)) (length (a_buffer a0) - a_garbage a0)); try lia; [|reflexivity]. f_equal. f_equal. lia.
Qed.

(** ** Example: three repeated deletions are too many for the live clause. *)
Definition del (HL : nat) (a : arena) (c : cref) : arena := match arena_delete_clause HL a c with Ret a' => a' | _ => a end.
Example utilization_again_example : let a0 := mkArena [7; 2147483651; 2; 4; 6; 8; 2147483649; 9]%N 0 in
  forall k a, a = Nat.iter k (fun a => del 1 a 0) (del 1 a0 0) ->
  utilization a = if 2 * k <=? 3 then Ret (8, 3 - 2 * k) else Panic PArith.
Proof.
  assert (C : forall xs, forallb (fun w => (w <? 2147483648)%N) xs = true -> Forall clear xs).
  { intros xs E. apply Forall_forall. intros x Hx. rewrite forallb_forall in E. apply E, N.ltb_lt in Hx. exact Hx. }
  cbv zeta. intros k a ->.
  assert (K : hook_ok 1 (fun h _ _ => h)) by (intros h o n A B; auto).
  assert (H : ahist_again 1 (fun h _ _ => h) k (Nat.iter k (fun a => del 1 a 0) (del 1 (mkArena [7; 2147483651; 2; 4; 6; 8; 2147483649; 9]%N 0) 0)) [(0, [7]%N, []); (5, [8]%N, [9]%N)] /\
     a_buffer (Nat.iter k (fun a => del 1 a 0) (del 1 (mkArena [7; 2147483651; 2; 4; 6; 8; 2147483649; 9]%N 0) 0)) = [7; 2147483648; 3; 4; 6; 8; 2147483649; 9]%N).
  { induction k as [|k [IH B]].
    - split; [|reflexivity]. apply (an_delete 1 _ 0 (mkArena [7; 2147483651; 2; 4; 6; 8; 2147483649; 9]%N 0) [(0, [7]%N, [2; 4; 6]%N); (5, [8]%N, [9]%N)] 0 [7]%N [2; 4; 6]%N); [|left; reflexivity|reflexivity].
      apply (an_add 1 _ 0 (mkArena [7; 2147483651; 2; 4; 6]%N 0) [(0, [7]%N, [2; 4; 6]%N)] [8]%N [9]%N 5); [|reflexivity|apply C; reflexivity|apply C; reflexivity|reflexivity].
      apply (an_add 1 _ 0 arena_empty [] [7]%N [2; 4; 6]%N 0); [constructor|reflexivity|apply C; reflexivity|apply C; reflexivity|reflexivity].
    - change (Nat.iter (S k) ?f ?x) with (f (Nat.iter k f x)). cbv beta. set (b := Nat.iter k _ _) in *. destruct b as [bf g]. cbn [a_buffer] in B. subst bf.
      split; [|reflexivity]. eapply (an_delete 1 _ k _ [(0, [7]%N, []); (5, [8]%N, [9]%N)] 0 [7]%N []); [exact IH|left; reflexivity|reflexivity]. }
  destruct H as [H B]. pose proof (utilization_again _ _ _ _ _ K H) as U. rewrite B in U. cbn [length] in U. change (used_words 1 _) with 3 in U. replace (k * (1 + 1)) with (2 * k) in U by lia. exact U.
Qed.

Print Assumptions again_counted.
Print Assumptions utilization_again.
