(** Concrete formulas and runs used in the examples beside the theorems. *)
From Coq Require Import NArith List Bool Arith.
From Verif Require Import Model_Base Model_Lit Model_Arena Model_Prop Model_Solver Spec Drivers_Solver Proof_Select Proof_Main.
Import ListNotations.

(** Four pigeons, three holes: [hole i h] says that pigeon [i] sits in hole [h]. *)
Definition hole (i h : N) : N := (2 * (3 * i + h) + 1)%N.
Definition pigeons (is : list N) : list (list N) :=
  map (fun i => [hole i 0; hole i 1; hole i 2]) is ++
  flat_map (fun h => flat_map (fun i => flat_map (fun j =>
    if (i <? j)%N then [[(hole i h - 1)%N; (hole j h - 1)%N]] else []) is) is) [0; 1; 2]%N.
Definition php4 : list (list N) := pigeons [0; 1; 2; 3]%N.
(** Satisfiable, but not without conflicts. *)
Definition sat5 : list (list N) := [[1; 3; 5]; [1; 3; 4]; [1; 2; 5]; [1; 2; 4]; [0; 3; 5]]%N.

Definition from_res {A} (d : A) (r : res A) : A := match r with Ret a => a | _ => d end.
Definition added (dbg : bool) (F : list (list N)) : solver :=
  from_res solver_new (add_clauses dbg (solver_write_proof solver_new) F).
Definition outcome (dbg : bool) (F : list (list N)) : bool * solver :=
  from_res (true, solver_new) (solve select_sort dbg 1000 (added dbg F)).

Definition valid_cnfb (F : list (list N)) : bool := forallb (forallb (fun l => (l <? 2147483648)%N)) F.
Lemma valid_cnfb_ok F : valid_cnfb F = true -> valid_cnf F.
Proof.
  unfold valid_cnfb. rewrite forallb_forall. intros H c Hc l Hl. specialize (H c Hc). rewrite forallb_forall in H.
  apply N.ltb_lt. auto.
Qed.
Lemma ret_from {A} (d : A) r : match r with Ret _ => true | _ => false end = true -> r = Ret (from_res d r).
Proof. destruct r; try discriminate; reflexivity. Qed.

Lemma any_select_sort : select_ok (fun _ _ => True) select_sort.
Proof. eapply select_any. apply select_sort_ok. Qed.
Lemma built_added dbg F : valid_cnfb F = true ->
  match add_clauses dbg (solver_write_proof solver_new) F with Ret _ => true | _ => false end = true -> built dbg F (added dbg F).
Proof.
  intros V R. unfold added. change F with ([] ++ F) at 1. eapply adds_built; [apply built_write_proof, built_new|apply valid_cnfb_ok; auto|].
  apply ret_from; auto.
Qed.
Lemma php4_built dbg : built dbg php4 (added dbg php4).
Proof. apply built_added; destruct dbg; vm_compute; reflexivity. Qed.
Lemma sat5_built dbg : built dbg sat5 (added dbg sat5).
Proof. apply built_added; destruct dbg; vm_compute; reflexivity. Qed.
Lemma php4_solve dbg : solve select_sort dbg 1000 (added dbg php4) = Ret (false, snd (outcome dbg php4)).
Proof. destruct dbg; vm_compute; reflexivity. Qed.
Lemma sat5_solve dbg : solve select_sort dbg 1000 (added dbg sat5) = Ret (true, snd (outcome dbg sat5)).
Proof. destruct dbg; vm_compute; reflexivity. Qed.
Definition answers (r : res (bool * solver)) (b : bool) : bool := match r with Ret (b', _) => Bool.eqb b b' | _ => false end.
Lemma solve_answers d r b : answers r b = true -> r = Ret (b, snd (from_res d r)).
Proof. destruct r as [[b' s]| |]; cbn; try discriminate. intro H. apply eqb_prop in H. subst. reflexivity. Qed.

(** The state after [k] search steps. *)
Fixpoint after (dbg : bool) (k : nat) (s : solver) : solver :=
  match k with
  | O => s
  | S k' => match schedule_search_step select_sort dbg (so_ctx s) (so_state s) with
            | Ret (_, cx, st) => after dbg k' (mkSolver cx st)
            | _ => s
            end
  end.
Lemma reach_after dbg F k : forall s, reach select_sort dbg F s -> reach select_sort dbg F (after dbg k s).
Proof.
  induction k as [|k IH]; intros s H; auto. cbn [after].
  destruct (schedule_search_step _ _ _ _) as [[[r cx] st]| |] eqn:E; auto. apply IH. eapply reach_step; eauto.
Qed.

(** Five pigeons, four holes. *)
Definition hole4 (i h : N) : N := (2 * (4 * i + h) + 1)%N.
Definition pigeons4 (is : list N) : list (list N) :=
  map (fun i => [hole4 i 0; hole4 i 1; hole4 i 2; hole4 i 3]) is ++
  flat_map (fun h => flat_map (fun i => flat_map (fun j =>
    if (i <? j)%N then [[(hole4 i h - 1)%N; (hole4 j h - 1)%N]] else []) is) is) [0; 1; 2; 3]%N.
Definition php5 : list (list N) := pigeons4 [0; 1; 2; 3; 4]%N.
Lemma php5_built dbg : built dbg php5 (added dbg php5).
Proof. apply built_added; destruct dbg; vm_compute; reflexivity. Qed.
