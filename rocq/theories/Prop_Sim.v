(** C72-C74: what the behaviour of the solver does not depend on. *)
From Coq Require Import NArith List Bool Arith Lia Permutation.
From Verif Require Import Model_Base Model_Lit Model_Prop Model_Solver Spec Drivers_Solver Drivers_Api
  Proof_Base Proof_Sim Proof_Select Proof_Main Examples_Solver Prop_Solver Prop_Cli.
Import ListNotations.

Definition rsr (pm : bool) (x y : result * solver) : Prop := fst x = fst y /\ sor pm (snd x) (snd y).
Lemma rel_call select d d' fuel s s' c : (d' = true -> d = true) -> sor true s s' ->
  rel (rsr true) (call_result select d fuel s c) (call_result select d' fuel s' c).
Proof.
  intros Hd H. destruct c; cbn [call_result].
  - eapply rel_bind; [apply (rel_solver_add _ _ Hd true), H|]. intros s1 s1' H1. apply rel_ret. split; auto.
  - eapply rel_bind; [apply (rel_solve _ _ Hd true), H|]. intros [b s1] [b' s1'] [E H1]. cbn [fst snd] in *. subst b'. apply rel_ret. split; auto.
  - rewrite (sor_value true _ _ l H). apply rel_bind_same. intros o _. apply rel_ret. split; auto.
  - apply rel_ret. split; [reflexivity|]. destruct H as [E H]. split; [|exact H]. unfold cr in *. cbn [so_ctx solver_write_proof snd]. rewrite E. reflexivity.
  - destruct H as [E H]. unfold cr in E. apply rel_ret. split; [cbn [fst]; rewrite E; reflexivity|]. split; [|exact H]. unfold cr. cbn [so_ctx solver_close_proof snd]. rewrite E. reflexivity.
Qed.
Lemma rel_api select d d' fuel calls : (d' = true -> d = true) -> forall s s', sor true s s' ->
  rel eq (api select d fuel s calls) (api select d' fuel s' calls).
Proof.
  intro Hd. induction calls as [|c calls IH]; intros s s' H; cbn [api]; [apply rel_same|].
  eapply rel_bind; [apply rel_call; eauto|]. intros [r s1] [r' s1'] [E H1]. cbn [fst snd] in *. subst r'.
  eapply rel_bind; [apply IH, H1|]. intros rs ? <-. destruct H1 as [E1 _]. rewrite E1. apply rel_same.
Qed.
Lemma sor_refl s : sor true s s.
Proof. split; [destruct s as [[? ?] ?]; reflexivity|]. split; [|reflexivity]. repeat split. apply pr_refl. Qed.

(** ** C72 *)
(** Whatever calls are made: if no call panics in a debug build, then none does
    in a release build and all results, models, proofs and statistics are the
    same.  ([OutOfFuel]: some [solve] needs more than [fuel] search steps;
    [PFull]: the panic on a full clause arena.) *)
Theorem builds_agree select fuel calls :
  match api select true fuel solver_new calls with
  | Ret seen => api select false fuel solver_new calls = Ret seen
  | OutOfFuel => api select false fuel solver_new calls = OutOfFuel
  | Panic PFull => api select false fuel solver_new calls = Panic PFull
  | Panic _ => True
  end.
Proof.
  pose proof (rel_api select true false fuel calls (fun _ => eq_refl) _ _ (sor_refl solver_new)) as H.
  destruct (api select true fuel solver_new calls) as [seen|e|]; cbn in H.
  - destruct H as (b & -> & <-). reflexivity.
  - destruct H as [H|H]; destruct e; auto; exfalso; apply H; reflexivity.
  - exact H.
Qed.

Definition calls4 : list call :=
  CWriteProof :: map CAdd sat5 ++ [CSolve; CValue 1; CValue 4; CSolve; CCloseProof; CAdd [1; 3; 5; 6]%N; CSolve; CValue 6].
Example builds_agree_example : exists seen, api select_sort true 100 solver_new calls4 = Ret seen /\
  map fst seen = RWriteProof :: map (fun _ => RAdd) sat5 ++
    [RSolve true; RValue (Some true); RValue (Some false); RSolve true; RCloseProof (Some [PAdd [5; 1]%N; PAdd [1]%N]); RAdd; RSolve true; RValue (Some true)].
Proof. eexists. split; vm_compute; reflexivity. Qed.

(** ** C73 *)
Lemma rel_api_plain select d fuel calls : forall s s', sor false s s' ->
  rel (fun x y => y = filter plain_result x) (api select d fuel s calls) (api select d fuel s' (filter plain_call calls)).
Proof.
  induction calls as [|c calls IH]; intros s s' H; [apply rel_ret; reflexivity|].
  assert (P : plain_call c = true -> rel (fun x y => rsr false x y /\ plain_result (fst x, cx_stats (so_ctx (snd x))) = true) (call_result select d fuel s c) (call_result select d fuel s' c)).
  { intro Hc. destruct c; cbn [call_result]; try discriminate.
    - eapply rel_bind; [apply (rel_solver_add _ _ (fun x => x) false), H|]. intros s1 s1' H1. apply rel_ret. repeat split; auto; apply H1.
    - eapply rel_bind; [apply (rel_solve _ _ (fun x => x) false), H|]. intros [b s1] [b' s1'] [E H1]. cbn [fst snd] in *. subst b'. apply rel_ret. repeat split; auto; apply H1.
    - rewrite (sor_value false _ _ l H). apply rel_bind_same. intros o _. apply rel_ret. repeat split; auto; apply H. }
  destruct (plain_call c) eqn:Ec; cbn [filter]; rewrite Ec; cbn [api].
  - eapply rel_bind; [apply P; reflexivity|]. intros [r s1] [r' s1'] [[E H1] Q]. cbn [fst snd] in *. subst r'.
    eapply rel_bind; [apply IH, H1|]. intros rs rs' ->. destruct H1 as [E1 _]. rewrite E1. apply rel_ret. cbn [filter]. rewrite Q. reflexivity.
  - assert (G : exists r s1, call_result select d fuel s c = Ret (r, s1) /\ sor false s1 s' /\ plain_result (r, cx_stats (so_ctx s1)) = false).
    { destruct H as [E H]. unfold cr in E. destruct c; cbn [call_result] in *; try discriminate; eexists _, _; (split; [reflexivity|]); (split; [|reflexivity]);
        (split; [unfold cr; rewrite E; reflexivity|exact H]). }
    destruct G as (r & s1 & -> & H1 & Q). cbn [bind]. specialize (IH _ _ H1). destruct (api select d fuel s1 calls) as [rs|e|]; cbn [bind rel] in *; auto.
    destruct IH as (b & -> & ->). exists (filter plain_result rs). split; auto. cbn [filter]. rewrite Q. reflexivity.
Qed.
Lemma sor_erase s : sor false s (mkSolver (cxe false (so_ctx s)) (so_state s)).
Proof. split; [reflexivity|]. split; [|reflexivity]. repeat split. apply pr_refl. Qed.

(** Whatever calls are made, in either build: leaving out the calls that install
    and close a proof writer changes none of the other results. *)
Theorem proof_writer_passive select dbg fuel calls :
  match api select dbg fuel solver_new calls with
  | Ret seen => api select dbg fuel solver_new (filter plain_call calls) = Ret (filter plain_result seen)
  | OutOfFuel => api select dbg fuel solver_new (filter plain_call calls) = OutOfFuel
  | Panic PFull => api select dbg fuel solver_new (filter plain_call calls) = Panic PFull
  | Panic _ => True
  end.
Proof.
  pose proof (rel_api_plain select dbg fuel calls _ _ (sor_erase solver_new)) as H. change (mkSolver _ _) with solver_new in H.
  destruct (api select dbg fuel solver_new calls) as [seen|e|]; cbn in H.
  - destruct H as (b & -> & ->). reflexivity.
  - destruct H as [H|H]; destruct e; auto; exfalso; apply H; reflexivity.
  - exact H.
Qed.
Example proof_writer_passive_example : exists seen, api select_sort true 100 solver_new (filter plain_call calls4) = Ret seen /\
  map fst seen = map (fun _ => RAdd) sat5 ++ [RSolve true; RValue (Some true); RValue (Some false); RSolve true; RAdd; RSolve true; RValue (Some true)].
Proof. eexists. split; vm_compute; reflexivity. Qed.

(** Conversely, when clauses are added and [solve] is called in a release build,
    a proof writer causes no panic either: the two runs are the same in all
    cases. *)
Definition run (select : selection) (dbg : bool) (fuel : nat) (s : solver) (F : list (list N)) : res (bool * solver) :=
  let* s1 := add_clauses dbg s F in solve select dbg fuel s1.
Lemma rel_adds d pm F s s' : sor pm s s' -> rel (sor pm) (add_clauses d s F) (add_clauses d s' F).
Proof. intro H. unfold add_clauses. apply rel_foldM; auto. intros. apply (rel_solver_add _ _ (fun x => x)). auto. Qed.
Theorem proof_writer_same_run select fuel F :
  select_ok (fun _ _ => True) select -> valid_cnf F ->
  (exists b s s', run select false fuel (solver_write_proof solver_new) F = Ret (b, s) /\ run select false fuel solver_new F = Ret (b, s') /\
     cx_stats (so_ctx s') = cx_stats (so_ctx s) /\ forall l, solver_value s' l = solver_value s l) \/
  (run select false fuel (solver_write_proof solver_new) F = Panic PFull /\ run select false fuel solver_new F = Panic PFull) \/
  (run select false fuel (solver_write_proof solver_new) F = OutOfFuel /\ run select false fuel solver_new F = OutOfFuel).
Proof.
  intros Hs HF. assert (R : rel (fun x y => fst x = fst y /\ sor false (snd x) (snd y)) (run select false fuel (solver_write_proof solver_new) F) (run select false fuel solver_new F)).
  { unfold run. eapply rel_bind; [apply (rel_adds false false F _ solver_new), (sor_erase (solver_write_proof solver_new))|].
    intros s1 s1' H1. apply (rel_solve _ _ (fun x => x) false). exact H1. }
  destruct (run select false fuel (solver_write_proof solver_new) F) as [[b s]|e|] eqn:E; cbn in R.
  - left. destruct R as ([b' s'] & -> & E1 & H). cbn [fst snd] in *. subst b'. exists b, s, s'. split; auto. split; auto. split; [destruct H as [H _]; rewrite H; reflexivity|].
    intro l. eapply sor_value; eauto.
  - right. left. assert (e = PFull).
    { unfold run in E. assert (HB : built false [] (solver_write_proof solver_new)) by (apply built_write_proof, built_new).
      destruct (adds_total select F [] _ HB HF) as [(s1 & E1)|[E1 _]]; rewrite E1 in E; cbn [bind] in E; [|congruence].
      assert (HB1 : built false F s1) by (change F with ([] ++ F); eapply adds_built; eauto).
      apply (solve_no_panic select false F fuel s1 e Hs (reach_built _ _ _ _ HB1) E). }
    subst e. destruct R as [R|R]; [exfalso; apply R; reflexivity|auto].
  - right. right. auto.
Qed.

(** ** C74 *)
(** Two formulas with the same clauses, as sets of sets of literals. *)
Definition covered (F G : list (list N)) : Prop := forall c, In c F -> exists d, In d G /\ incl d c /\ incl c d.
(** The answer depends on nothing but the satisfiability of the clauses added. *)
Theorem answer_semantic select select' dbg dbg' F G fuel fuel' s s' b b' s1 s1' :
  select_ok (fun _ _ => True) select -> select_ok (fun _ _ => True) select' ->
  reach select dbg F s -> reach select' dbg' G s' -> (satisfiable F <-> satisfiable G) ->
  solve select dbg fuel s = Ret (b, s1) -> solve select' dbg' fuel' s' = Ret (b', s1') -> b = b'.
Proof.
  intros Hs Hs' HR HR' Q E E'. destruct b, b'; auto; exfalso.
  - eapply solve_false_unsat; [exact Hs'|exact HR'|exact E'|]. apply Q. eexists. eapply solve_true_satisfies; [exact Hs|exact HR|exact E].
  - eapply solve_false_unsat; [exact Hs|exact HR|exact E|]. apply Q. eexists. eapply solve_true_satisfies; [exact Hs'|exact HR'|exact E'].
Qed.
Lemma covered_sat F G : covered F G -> satisfiable G -> satisfiable F.
Proof. intros H (v & Hv). exists v. intros c Hc. destruct (H c Hc) as (e & He & H1 & H2). destruct (Hv e He) as (l & Hl & Q). exists l. auto. Qed.
(** The order and repetition of clauses and literals does not matter. *)
Theorem answer_order select select' dbg dbg' F G fuel fuel' s s' b b' s1 s1' :
  select_ok (fun _ _ => True) select -> select_ok (fun _ _ => True) select' ->
  reach select dbg F s -> reach select' dbg' G s' -> covered F G -> covered G F ->
  solve select dbg fuel s = Ret (b, s1) -> solve select' dbg' fuel' s' = Ret (b', s1') -> b = b'.
Proof.
  intros Hs Hs' HR HR' H1 H2. eapply answer_semantic; eauto. split; apply covered_sat; auto.
Qed.

(** [r] renames variables and may flip their signs; [g] is its inverse. *)
Definition renaming (r g : N -> N) : Prop := forall l, r (neg l) = neg (r l) /\ g (neg l) = neg (g l) /\ g (r l) = l.
Lemma rename_sat r g F : renaming r g -> satisfiable (map (map r) F) -> satisfiable F.
Proof.
  intros H (v & Hv). exists (fun x => if N.odd (r (2 * x + 1)%N) then v (r (2 * x + 1) / 2)%N else negb (v (r (2 * x + 1) / 2)%N)).
  intros c Hc. destruct (Hv (map r c) (in_map _ _ _ Hc)) as (k & Hk & Q). apply in_map_iff in Hk. destruct Hk as (l & <- & Hl). exists l. split; auto.
  unfold sat_lit in *.
  assert (D : (l = 2 * (l / 2) + if N.odd l then 1 else 0)%N).
  { rewrite (N.div_mod l 2) at 1 by lia. f_equal. rewrite <- N.bit0_mod, N.bit0_odd. destruct (N.odd l); reflexivity. }
  destruct (N.odd l) eqn:O.
  - rewrite <- D. destruct (N.odd (r l)); auto. rewrite Q. reflexivity.
  - assert (Nl : (2 * (l / 2) + 1)%N = neg l) by (unfold neg; rewrite O; lia). rewrite Nl, (proj1 (H l)).
    assert (G : (neg (r l) / 2 = r l / 2)%N /\ N.odd (neg (r l)) = negb (N.odd (r l))).
    { unfold neg. generalize (r l). clear. intro x. destruct (N.odd x) eqn:O.
      - apply N.odd_spec in O. destruct O as (y & ->). replace (2 * y + 1 - 1)%N with (2 * y)%N by lia. split; [|apply N.odd_mul].
        rewrite (N.mul_comm 2 y), N.div_mul, N.div_add_l by lia. cbn. lia.
      - rewrite <- N.negb_even in O. apply negb_false_iff, N.even_spec in O. destruct O as (y & ->). split; [|rewrite N.add_1_r, N.odd_succ, N.even_mul; reflexivity].
        rewrite (N.mul_comm 2 y), N.div_mul, N.div_add_l by lia. cbn. lia. }
    destruct G as [-> ->]. rewrite Q. destruct (N.odd (r l)); reflexivity.
Qed.
(** Renaming variables and flipping their signs does not matter. *)
Theorem answer_renaming select select' dbg dbg' r g F fuel fuel' s s' b b' s1 s1' :
  select_ok (fun _ _ => True) select -> select_ok (fun _ _ => True) select' ->
  renaming r g -> renaming g r -> reach select dbg F s -> reach select' dbg' (map (map r) F) s' ->
  solve select dbg fuel s = Ret (b, s1) -> solve select' dbg' fuel' s' = Ret (b', s1') -> b = b'.
Proof.
  intros Hs Hs' H H' HR HR'. eapply answer_semantic; eauto. split; [|eapply rename_sat; eauto].
  intro Q. apply (rename_sat g r); auto. replace (map (map g) (map (map r) F)) with F; auto. symmetry. rewrite map_map.
  rewrite <- (map_id F) at 2. apply map_ext. intro c. rewrite map_map. rewrite <- (map_id c) at 2. apply map_ext. intro l. apply H.
Qed.
Example answer_order_example : covered [[1; 3; 5]; [1; 4]]%N [[4; 1; 4]; [5; 3; 1]; [1; 4]]%N /\ covered [[4; 1; 4]; [5; 3; 1]; [1; 4]]%N [[1; 3; 5]; [1; 4]]%N.
Proof.
  split; intros c Hc; repeat (destruct Hc as [<-|Hc]); try contradiction.
  1: exists [5; 3; 1]%N. 2: exists [1; 4]%N. 3: exists [1; 4]%N. 4: exists [1; 3; 5]%N. 5: exists [1; 4]%N.
  all: split; [cbn; auto|]; split; intros x Hx; cbn in *; tauto.
Qed.
(** Exchanging two variables and flipping one of them. *)
Definition swap01 (l : N) : N := match l with 0 => 2 | 1 => 3 | 2 => 0 | 3 => 1 | 4 => 5 | 5 => 4 | _ => l end%N.
Example answer_renaming_example : renaming swap01 swap01.
Proof.
  intro l. destruct (N.le_gt_cases 6 l) as [G|G].
  - assert (I : forall x, (6 <= x)%N -> swap01 x = x) by (intros x Hx; destruct x as [|[[[]|[]|]|[[]|[]|]|]]; try lia; reflexivity).
    assert (6 <= neg l)%N. { unfold neg. destruct (N.odd l) eqn:O; [|lia]. destruct (N.eq_dec l 6) as [->|]; [discriminate|lia]. }
    rewrite !I; auto.
  - destruct l as [|[[[]|[]|]|[[]|[]|]|]]; try lia; repeat split; reflexivity.
Qed.

Print Assumptions builds_agree.
Print Assumptions proof_writer_passive.
Print Assumptions proof_writer_same_run.
Print Assumptions answer_semantic.
Print Assumptions answer_order.
Print Assumptions answer_renaming.
