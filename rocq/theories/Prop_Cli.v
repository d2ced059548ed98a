(** C48 (printed model), C49 (exit code), C61 (proof file), C62 (total correctness): the command line program. *)
From Coq Require Import Ascii String.
From Coq Require Import NArith ZArith List Bool Arith Lia ZifyN ZifyNat ZifyBool.
From Coq Require Decimal DecimalFacts.
From Verif Require Import Model_Base Model_Lit Model_Prop Model_Solver Model_Drat Model_Cli Spec Spec_Format Drivers Drivers_Solver
  Proof_Base Proof_PA Proof_Lit Proof_Header Proof_Drat Proof_Main Proof_Select Proof_Add Proof_Solver Proof_Search Proof_Solve Examples_Solver Prop_Drat Prop_Solver.
Import ListNotations.
Local Open Scope list_scope.

(** The bytes of a text. *)
Definition text (s : string) : list N := map N_of_ascii (list_ascii_of_string s).

(** ** The printed numbers are short *)
Lemma double_len : forall d,
  (Decimal.nb_digits (Decimal.Little.double d) <= S (Decimal.nb_digits d))%nat /\
  (Decimal.nb_digits (Decimal.Little.succ_double d) <= S (Decimal.nb_digits d))%nat.
Proof. induction d as [|d [A B]|d [A B]|d [A B]|d [A B]|d [A B]|d [A B]|d [A B]|d [A B]|d [A B]|d [A B]]; simpl in *; lia. Qed.
Lemma little_len p : (Decimal.nb_digits (Pos.to_little_uint p) <= Pos.size_nat p)%nat.
Proof.
  induction p as [p IH|p IH|]; cbn [Pos.to_little_uint Pos.size_nat]; [| |simpl; lia].
  - pose proof (proj2 (double_len (Pos.to_little_uint p))). lia.
  - pose proof (proj1 (double_len (Pos.to_little_uint p))). lia.
Qed.
Lemma uint_bytes_len u : List.length (uint_bytes u) = Decimal.nb_digits u.
Proof. induction u; simpl; auto. Qed.
Lemma size_nat_le n k : (n < 2 ^ N.of_nat k)%N -> (N.size_nat n <= k)%nat.
Proof.
  intro H. rewrite size_nat_spec. destruct (N.eq_dec n 0) as [->|Z]; [simpl; lia|].
  rewrite N.size_log2 by auto. apply N.log2_lt_pow2 in H; lia.
Qed.
Lemma ascii_len z k : (Z.abs_N z < 2 ^ N.of_nat k)%N -> (List.length (ascii_digits z) <= k + 2)%nat.
Proof.
  intro H. unfold ascii_digits. rewrite app_length, uint_bytes_len.
  assert (A : (List.length (if (z <? 0)%Z then [45%N] else []) <= 1)%nat) by (destruct (z <? 0)%Z; simpl; lia).
  destruct (Z.abs_N z) as [|p]; [simpl; lia|]. unfold N.to_uint, Pos.to_uint. rewrite DecimalFacts.nb_digits_rev.
  pose proof (little_len p). pose proof (size_nat_le _ _ H). cbn [N.size_nat] in *. lia.
Qed.

(** ** The printing loop *)
Definition item (val : nat -> option bool) (i : nat) : list Z :=
  match val i with
  | Some true => [Z.of_nat (S i)]
  | Some false => [(- Z.of_nat (S i))%Z]
  | None => []
  end.

Definition words (zs : list Z) : list N := flat_map (fun z => 32%N :: ascii_digits z) zs.
Lemma tokens_words zs : forall cur, cur <> [] -> (forall b, In b cur -> is_space b = false) ->
  tokens cur (words zs) = cur :: map ascii_digits zs.
Proof.
  induction zs as [|z zs IH]; intros cur Hc Hs; [cbn; destruct cur; congruence|].
  cbn [words flat_map app]. cbn [tokens]. change (is_space 32) with true. cbv iota. destruct cur as [|b cur]; [congruence|]. f_equal.
  fold (words zs). cbn [map].
  assert (A : forall w cur rest, (forall b, In b w -> is_space b = false) -> tokens cur (w ++ rest) = tokens (cur ++ w) rest).
  { clear. induction w as [|b w IHw]; intros cur rest Hw; [rewrite app_nil_r; reflexivity|]. cbn [app tokens]. rewrite Hw by (left; auto).
    rewrite IHw by (intros; apply Hw; right; auto). rewrite <- app_assoc. reflexivity. }
  rewrite A by apply ascii_nospace. rewrite app_nil_l. rewrite IH; auto using ascii_nonempty. apply ascii_nospace.
Qed.
Lemma read_ints_ascii zs : read_ints (map ascii_digits zs) = Some zs.
Proof. induction zs as [|z zs IH]; [reflexivity|]. cbn [map read_ints]. rewrite ascii_read, IH. reflexivity. Qed.
Lemma read_v zs r : read_vlines ((118%N :: words zs) :: r) = match read_vlines r with Some zr => Some (zs ++ zr) | None => None end.
Proof.
  cbn [read_vlines tokens]. change (is_space 118) with false. cbv iota. cbn [app].
  rewrite tokens_words by (try discriminate; intros b [<-|[]]; reflexivity). change (is_token 118 [118%N]) with true. cbv iota.
  rewrite read_ints_ascii. reflexivity.
Qed.
Lemma read_vs zss r : read_vlines (map (fun zs => 118%N :: words zs) zss ++ r) = match read_vlines r with Some zr => Some (concat zss ++ zr) | None => None end.
Proof.
  induction zss as [|zs zss IH]; cbn [map app concat]; [destruct (read_vlines r); reflexivity|]. rewrite read_v, IH.
  destruct (read_vlines r); auto. rewrite app_assoc. reflexivity.
Qed.
Lemma words_app a b : words (a ++ b) = words a ++ words b.
Proof. apply flat_map_app. Qed.

Section Loop.
Context (value : lit -> res (option bool)) (n : nat) (val : nat -> option bool).
Context (Hn : (N.of_nat n <= 1073741824)%N) (Hv : forall i, i < n -> value (mklit (N.of_nat i) true) = Ret (val i)).

Definition num (i : nat) (b : bool) : Z := if b then Z.of_nat (S i) else (- Z.of_nat (S i))%Z.
Lemma v_item_item i b : v_item (mklit (N.of_nat i) true) b = words [num i b].
Proof.
  unfold v_item, words. cbn [flat_map]. rewrite app_nil_r. f_equal. f_equal.
  assert (E : lit_xor_bool (mklit (N.of_nat i) true) (negb b) = mklit (N.of_nat i) b).
  { rewrite lit_xor_bool_spec. destruct b; cbn [negb]; auto. unfold neg. rewrite mklit_odd. unfold mklit. lia. }
  rewrite E, dimacs_mk. unfold num. destruct b; lia.
Qed.
Lemma item_len i b : i < n -> length (words [num i b]) <= 77.
Proof.
  intro H. unfold words. cbn [flat_map]. rewrite app_nil_r. cbn [length].
  pose proof (ascii_len (num i b) 31) as L. change (2 ^ N.of_nat 31)%N with 2147483648%N in L.
  assert (length (ascii_digits (num i b)) <= 31 + 2) by (apply L; unfold num; destruct b; lia). lia.
Qed.
Lemma v_loop : forall k i zss line, i + k = n ->
  (forall zs, In zs zss -> length (words zs) <= 77) -> length (words line) <= 77 ->
  exists zss' line', foldM (v_step value) (seq i k) (map (fun zs => 118%N :: words zs) zss, words line) =
      Ret (map (fun zs => 118%N :: words zs) zss', words line') /\
    (forall zs, In zs zss' -> length (words zs) <= 77) /\ length (words line') <= 77 /\
    concat zss' ++ line' = concat zss ++ line ++ flat_map (item val) (seq i k).
Proof.
  induction k as [|k IH]; intros i zss line Hk H1 H2.
  - exists zss, line. cbn [seq foldM flat_map]. rewrite app_nil_r. auto.
  - cbn [seq foldM flat_map]. unfold v_step at 1. rewrite from_index_ok by lia. cbn [bind]. rewrite Hv by lia. cbn [bind]. unfold item at 1.
    destruct (val i) as [b|].
    + rewrite v_item_item, <- words_app.
      assert (E : (match b with true => [Z.of_nat (S i)] | false => [(- Z.of_nat (S i))%Z] end) = [num i b]) by (destruct b; reflexivity). rewrite E.
      destruct (Nat.ltb_spec 77 (length (words (line ++ [num i b])))) as [G|G]; cbn [bind].
      * destruct (IH (S i) (zss ++ [line]) [num i b]) as (zss' & line' & A & B & C & D); [lia| |apply item_len; lia|].
        { intros zs Hz. apply in_app_or in Hz as [Hz|[<-|[]]]; auto. }
        exists zss', line'. rewrite map_app in A. cbn [map] in A. split; [exact A|]. split; auto. split; auto. rewrite D, concat_app. cbn [concat]. rewrite app_nil_r, <- !app_assoc. reflexivity.
      * destruct (IH (S i) zss (line ++ [num i b])) as (zss' & line' & A & B & C & D); [lia|auto|lia|].
        exists zss', line'. split; [exact A|]. split; auto. split; auto. rewrite D, <- !app_assoc. reflexivity.
    + destruct (IH (S i) zss line) as (zss' & line' & A & B & C & D); auto; [lia|]. exists zss', line'. split; [exact A|]. auto.
Qed.
Lemma v_lines_ok : exists vs, v_lines value n = Ret vs /\ (forall l, In l vs -> length l <= 78) /\
  read_vlines vs = Some (flat_map (item val) (seq 0 n) ++ [0%Z]).
Proof.
  destruct (v_loop n 0 [] []) as (zss & line & A & B & C & D); [lia|intros zs []|cbn; lia|]. cbn [map words flat_map] in A. unfold v_lines. rewrite A. cbn [bind].
  cbn [concat app] in D. rewrite <- D. eexists. split; [reflexivity|].
  assert (Z : words line = [] -> line = []) by (destruct line; [auto|discriminate]).
  split.
  - intros l Hl. apply in_app_or in Hl as [Hl|Hl].
    + apply in_map_iff in Hl as (zs & <- & Hz). cbn [length]. specialize (B zs Hz). lia.
    + apply in_app_or in Hl as [Hl|[<-|[]]]; [|cbn; lia]. destruct (words line); [contradiction|]. destruct Hl as [<-|[]]. cbn [length] in *. lia.
  - rewrite read_vs. replace (match words line with [] => [] | _ => [118%N :: words line] end ++ [[118; 32; 48]%N])
      with (map (fun zs => 118%N :: words zs) (match line with [] => [] | _ => [line] end) ++ [118%N :: words [0%Z]]).
    + rewrite read_vs, read_v. cbn [read_vlines]. f_equal. rewrite app_nil_r, <- app_assoc. f_equal. f_equal. destruct line; [reflexivity|]. cbn [concat]. apply app_nil_r.
    + destruct line as [|z line]; reflexivity.
Qed.
End Loop.

(** ** C48 *)
Definition declared (n : nat) (F : list (list N)) : Prop := forall c x, In c F -> In x c -> (x / 2 < N.of_nat n)%N.

(** [n] is the number of variables in the header of the file: at most 2^30, and
    no clause contains a larger variable (the parser checks both). *)
Theorem cli_model select dbg fuel proof n F out code s :
  select_ok (fun _ _ => True) select -> valid_cnf F -> declared n F -> (N.of_nat n <= 1073741824)%N ->
  cli_run select dbg fuel proof n F = Ret (out, code, s) ->
  (out = [text "s UNSATISFIABLE"] /\ ~ satisfiable F) \/
  (exists vs zs, out = text "s SATISFIABLE" :: vs /\ (forall l, In l vs -> length l <= 78) /\
     read_vlines vs = Some (zs ++ [0%Z]) /\
     (forall z, In z zs -> z <> 0%Z /\ (Z.abs z <= Z.of_nat n)%Z) /\
     (forall c x, In c F -> In x c -> exists! z, In z zs /\ Z.abs z = Z.abs (dimacs x)) /\
     (forall c, In c F -> exists x, In x c /\ In (dimacs x) zs)).
Proof.
  intros Hs HF HD Hn E. unfold cli_run in E. set (s0 := if proof then _ else _) in E.
  destruct (add_clauses dbg s0 F) as [s1| |] eqn:E1; try discriminate. cbn [bind] in E.
  assert (HB : built dbg F s1).
  { change F with ([] ++ F). eapply adds_built; eauto. unfold s0. destruct proof; [apply built_write_proof|]; apply built_new. }
  destruct (solve select dbg fuel s1) as [[sat s2]| |] eqn:E2; try discriminate. cbn [bind] in E. destruct sat.
  2:{ left. inversion E; subst. split; [reflexivity|]. eapply solve_false_unsat; eauto. apply reach_built; auto. }
  right. pose proof (reach_built select dbg F s1 HB) as HR.
  assert (HR2 : reach select dbg F s2) by (eapply reach_solve; eauto).
  set (val := fun i => match solver_value s2 (mklit (N.of_nat i) true) with Ret o => o | _ => None end).
  assert (Hv : forall i, i < n -> solver_value s2 (mklit (N.of_nat i) true) = Ret (val i)).
  { intros i _. unfold val. destruct (value_no_panic select dbg F s2 (mklit (N.of_nat i) true) Hs HR2) as (o & ->). reflexivity. }
  destruct (v_lines_ok (solver_value s2) n val Hn Hv) as (vs & E3 & L & R). rewrite E3 in E. cbn [bind] in E. inversion E; subst out code s.
  exists vs, (flat_map (item val) (seq 0 n)). split; [reflexivity|]. split; auto. split; auto.
  assert (I : forall z, In z (flat_map (item val) (seq 0 n)) <-> exists i b, i < n /\ val i = Some b /\ z = num i b).
  { intro z. rewrite in_flat_map. unfold item. split.
    - intros (i & Hi & Hz). apply in_seq in Hi. destruct (val i) as [[]|] eqn:Ev; try contradiction; destruct Hz as [<-|[]]; exists i; [exists true|exists false]; (split; [lia|auto]).
    - intros (i & b & Hi & Ev & ->). exists i. split; [apply in_seq; lia|]. rewrite Ev. destruct b; left; reflexivity. }
  split.
  { intros z Hz. apply I in Hz as (i & b & Hi & _ & ->). unfold num. destruct b; lia. }
  assert (V : forall c x, In c F -> In x c -> exists b, val (N.to_nat (x / 2)) = Some b /\ (solver_value s2 x = Ret (Some true) -> dimacs x = num (N.to_nat (x / 2)) b)).
  { intros c x Hc Hx. destruct (value_total_consistent select dbg F fuel s1 s2 (mklit (x / 2) true) Hs HR E2) as [T _].
    destruct T as (b & B1 & B2); [exists c, x; rewrite mklit_var; split; auto; split; auto; lia|].
    exists b. split; [unfold val; rewrite N2Nat.id, B1; reflexivity|]. intro Vx.
    assert (Eb : N.odd x = b).
    { rewrite (lit_mklit x) in Vx. destruct (N.odd x); [congruence|]. assert (G : mklit (x / 2) false = neg (mklit (x / 2) true)).
      { unfold neg. rewrite mklit_odd. unfold mklit. lia. }
      rewrite G, B2 in Vx. destruct b; [discriminate|reflexivity]. }
    unfold dimacs, num. rewrite Eb. destruct b; lia. }
  split.
  - intros c x Hc Hx. destruct (V c x Hc Hx) as (b & B & _). pose proof (HD c x Hc Hx) as D. exists (num (N.to_nat (x / 2)) b).
    assert (Ex : Z.abs (dimacs x) = Z.of_nat (S (N.to_nat (x / 2)))) by (unfold dimacs; destruct (N.odd x); lia).
    split.
    + split; [apply I; exists (N.to_nat (x / 2)), b; split; [lia|auto]|]. rewrite Ex. unfold num. destruct b; lia.
    + intros z [Hz Hz2]. apply I in Hz as (j & b2 & Hj & Ej & ->). assert (j = N.to_nat (x / 2)) by (rewrite Ex in Hz2; unfold num in Hz2; destruct b2; lia). subst j.
      rewrite B in Ej. inversion Ej. reflexivity.
  - intros c Hc. destruct (solve_true_model _ _ _ _ _ _ Hs HR E2 c Hc) as (x & Hx & Vx). exists x. split; auto.
    destruct (V c x Hc Hx) as (b & B & G). rewrite (G Vx). apply I. exists (N.to_nat (x / 2)), b. pose proof (HD c x Hc Hx). split; [lia|auto].
Qed.

(** Printing does not panic: once solve returned, so does the program. *)
Theorem cli_prints select dbg fuel (proof : bool) n F s1 sat s2 :
  select_ok (fun _ _ => True) select -> valid_cnf F -> (N.of_nat n <= 1073741824)%N ->
  add_clauses dbg (if proof then solver_write_proof solver_new else solver_new) F = Ret s1 ->
  solve select dbg fuel s1 = Ret (sat, s2) ->
  exists out code, cli_run select dbg fuel proof n F = Ret (out, code, s2) /\
    hd_error out = Some (text (if sat then "s SATISFIABLE" else "s UNSATISFIABLE")).
Proof.
  intros Hs HF Hn E1 E2. unfold cli_run. rewrite E1. cbn [bind]. rewrite E2. cbn [bind]. destruct sat; [|eexists _, _; split; reflexivity].
  assert (HB : built dbg F s1).
  { change F with ([] ++ F). eapply adds_built; eauto. destruct proof; [apply built_write_proof|]; apply built_new. }
  assert (HR2 : reach select dbg F s2) by (eapply reach_solve; [apply reach_built|]; eauto).
  destruct (v_lines_ok (solver_value s2) n (fun i => match solver_value s2 (mklit (N.of_nat i) true) with Ret o => o | _ => None end) Hn) as (vs & E3 & _).
  { intros i _. destruct (value_no_panic select dbg F s2 (mklit (N.of_nat i) true) Hs HR2) as (o & ->). reflexivity. }
  rewrite E3. eexists _, _. split; reflexivity.
Qed.

(** A satisfiable formula with a declared but unused fourth variable. *)
Example cli_example : exists s,
  cli_run select_sort true 1000 false 4 sat5 = Ret ([text "s SATISFIABLE"; text "v 1 2 3"; text "v 0"], 20, s) /\
  valid_cnf sat5 /\ declared 4 sat5.
Proof.
  exists (match cli_run select_sort true 1000 false 4 sat5 with Ret (_, s) => s | _ => solver_new end). split; [vm_compute; reflexivity|].
  split; [apply valid_cnfb_ok; reflexivity|]. intros c x Hc Hx.
  cbn in Hc. repeat (destruct Hc as [<-|Hc]; [cbn in Hx; repeat (destruct Hx as [<-|Hx]; [reflexivity|]); contradiction|]). contradiction.
Qed.
(** A model of 40 variables takes two lines. *)
Example cli_lines_example : let F := map (fun i => [2 * N.of_nat i + 1]%N) (seq 0 40) in
  match cli_run select_sort true 1000 false 40 F with
  | Ret (out, _, _) => map (@length N) out = [13; 76; 37; 3]
  | _ => False
  end.
Proof. vm_compute. reflexivity. Qed.

(** ** C49 *)
(** Partial: the exit code is 20 if the formula is unsatisfiable. *)
Theorem exit_code_partial select dbg fuel proof n F out code s :
  select_ok (fun _ _ => True) select -> valid_cnf F -> declared n F -> (N.of_nat n <= 1073741824)%N ->
  cli_run select dbg fuel proof n F = Ret (out, code, s) -> ~ satisfiable F -> code = 20 /\ out = [text "s UNSATISFIABLE"].
Proof.
  intros Hs HF HD Hn E U. pose proof (cli_model _ _ _ _ _ _ _ _ _ Hs HF HD Hn E) as [[-> _]|(vs & zs & -> & _ & _ & Hz & Hu & Hm)].
  - split; auto. unfold cli_run in E. destruct (add_clauses _ _ _); try discriminate. cbn [bind] in E. destruct (solve _ _ _ _) as [[[] s2]| |]; try discriminate; cbn [bind] in E.
    + destruct (v_lines _ _); discriminate.
    + inversion E; reflexivity.
  - exfalso. apply U. unfold cli_run in E. destruct (add_clauses dbg _ F) as [s1| |] eqn:E1; try discriminate. cbn [bind] in E.
    destruct (solve _ _ _ _) as [[[] s2]| |] eqn:E2; try discriminate; cbn [bind] in E.
    eexists. eapply solve_true_satisfies; [exact Hs| |exact E2]. apply reach_built. change F with ([] ++ F). eapply adds_built; eauto. destruct proof; [apply built_write_proof|]; apply built_new.
Qed.
(** Not so if it is satisfiable: the code is 20 instead of 10. *)
Theorem exit_code_refuted : exists F out s, valid_cnf F /\ satisfiable F /\
  cli_run select_sort false 1000 false 3 F = Ret (out, 20, s) /\ hd_error out = Some (text "s SATISFIABLE").
Proof.
  exists sat5. exists (match cli_run select_sort false 1000 false 3 sat5 with Ret (o, _, _) => o | _ => [] end), (match cli_run select_sort false 1000 false 3 sat5 with Ret (_, s) => s | _ => solver_new end).
  split; [apply valid_cnfb_ok; reflexivity|]. split; [exists (fun _ => true); intros c Hc|split; [vm_compute; reflexivity|reflexivity]].
  cbn in Hc. repeat (destruct Hc as [<-|Hc]; [first [exists 1%N; split; [cbn; tauto|reflexivity]|exists 3%N; split; [cbn; tauto|reflexivity]]|]). contradiction.
Qed.

(** ** C61: the proof file *)
Definition decode_proof (f : proof_format) (bs : list N) : option (list zstep) :=
  match f with FmtDrat => decode_drat bs | FmtBinaryDrat => decode_bdrat bs end.
(** A proof step with its literals as DIMACS numbers. *)
Definition zstep_of (s : pstep) : zstep := match s with Add c => ZAdd (map dimacs c) | Del c => ZDel (map dimacs c) end.

Lemma zs_of_pstep log : map zs_of log = map zstep_of (map to_pstep log).
Proof. rewrite map_map. apply map_ext. intros []; reflexivity. Qed.

Lemma adds_log dbg F : forall G s s', valid_cnf G -> built dbg F s -> add_clauses dbg s G = Ret s' -> cx_proof (so_ctx s') = cx_proof (so_ctx s).
Proof.
  intro G. revert F. induction G as [|c G IH]; intros F s s' HG HB E; [inversion E; auto|].
  unfold add_clauses in E; cbn [foldM] in E. destruct (solver_add_clause dbg s c) as [s1| |] eqn:E1; try discriminate. cbn [bind] in E.
  assert (Hc : valid_clause c) by (apply HG; left; auto).
  rewrite (IH (F ++ [c]) s1 s'); [|intros d Hd; apply HG; right; auto|eapply built_add; eauto|exact E].
  destruct (add_ok dbg _ F s c (PSI_built _ _ _ HB) Hc) as [[A _]|[(_ & l & _ & _ & A)|(s2 & A & _ & P)]]; rewrite E1 in A; inversion A; subst; auto.
Qed.
Lemma solve_keeps_log select dbg F fuel s b s' : select_ok (fun _ _ => True) select -> built dbg F s ->
  solve select dbg fuel s = Ret (b, s') -> proof_log s <> None -> exists steps, proof_log s' = Some steps.
Proof.
  intros Hs HB E HP. pose proof (PSI_built _ _ _ HB) as [(es & H) _ _ _ _ _ _].
  assert (HK : dbg = true -> Kof dbg s = 0) by (intros ->; reflexivity).
  destruct (solve_ok select _ dbg _ (cnf_vars F) F Hs HK fuel [] [] es s H) as [E1|[E1|(b' & s1 & L' & steps' & es' & E1 & H1 & _ & Hpr & _)]];
    rewrite E in E1; try discriminate. inversion E1; subst b' s1.
  unfold proof_log in *. destruct (cx_proof (so_ctx s')) as [p|] eqn:Ep; [eexists; reflexivity|].
  rewrite (proj2 Hpr eq_refl) in HP. cbn in HP. congruence.
Qed.
Lemma uint_small u : Forall (fun b => (b < 256)%N) (uint_bytes u).
Proof. induction u; cbn [uint_bytes]; constructor; auto; reflexivity. Qed.
Lemma drat_small log : Forall (fun b => (b < 256)%N) (drat_output log).
Proof.
  assert (A : forall c, Forall (fun b => (b < 256)%N) (drat_add_clause c)).
  { intro c. unfold drat_add_clause. apply Forall_app. split; [|repeat constructor]. induction c as [|l c IH]; [constructor|]. cbn [flat_map].
    apply Forall_app. split; auto. apply Forall_app. split; [|repeat constructor]. unfold ascii_digits. apply Forall_app. split; [|apply uint_small].
    destruct (_ <? _)%Z; repeat constructor. }
  unfold drat_output. induction log as [|s log IH]; [constructor|]. cbn [flat_map]. apply Forall_app. split; auto.
  destruct s; cbn [drat_step]; auto. unfold drat_delete_clause. repeat constructor. apply A.
Qed.

(** Whatever the format, the file decodes to a valid proof from the clauses of
    the input file, which refutes them if "s UNSATISFIABLE" was printed. *)
Theorem cli_proof_file select dbg fuel f n F out code file :
  select_ok (fun _ _ => True) select -> valid_cnf F ->
  cli_main select dbg fuel (Some f) n F = Ret (out, code, file) ->
  exists bs steps L, file = Some bs /\ Forall (fun b => (b < 256)%N) bs /\
    decode_proof f bs = Some (map zstep_of steps) /\ drat_run F steps L /\
    (out = [text "s UNSATISFIABLE"] -> up_conflict (L ++ F) []).
Proof.
  intros Hs HF E. unfold cli_main in E. destruct (cli_run _ _ _ _ _ _) as [[[out' code'] s]| |] eqn:ER; try discriminate. cbn [bind] in E.
  unfold cli_run in ER. destruct (add_clauses dbg (solver_write_proof solver_new) F) as [s1| |] eqn:E1; try discriminate. cbn [bind] in ER.
  assert (HB : built dbg F s1).
  { change F with ([] ++ F). eapply adds_built; eauto. apply built_write_proof, built_new. }
  assert (HL : proof_log s1 = Some []).
  { unfold proof_log. rewrite (adds_log dbg [] F _ _ HF (built_write_proof _ _ _ (built_new _)) E1). reflexivity. }
  destruct (solve select dbg fuel s1) as [[sat s2]| |] eqn:E2; try discriminate. cbn [bind] in ER.
  assert (HP : exists steps L, proof_log s2 = Some steps /\ drat_run F steps L /\ (sat = false -> up_conflict (L ++ F) [])).
  { destruct sat.
    - destruct (solve_keeps_log _ _ _ _ _ _ _ Hs HB E2 ltac:(congruence)) as (steps & A).
      destruct (log_inv select dbg F s2 steps Hs ltac:(eapply reach_solve; [apply reach_built|]; eauto) A) as (L & B). exists steps, L. split; auto. split; auto. discriminate.
    - destruct (proof_refutes select dbg F fuel s1 s2 Hs HB ltac:(congruence) E2) as (steps & L & A & B & C). eauto 10. }
  assert (G : s = s2 /\ (out = [text "s UNSATISFIABLE"] -> sat = false)).
  { destruct sat.
    - destruct (v_lines _ _) as [vs| |]; try discriminate. cbn [bind] in ER. inversion ER; subst. split; auto.
      destruct (cx_proof (so_ctx s)); [destruct (proof_bytes _ _); try discriminate; cbn [bind] in E|]; inversion E; subst; discriminate.
    - inversion ER; subst. auto. }
  destruct G as [-> G]. destruct HP as (steps & L & P1 & P2 & P3).
  unfold proof_log in P1. destruct (cx_proof (so_ctx s2)) as [log|]; [|discriminate]. cbn [option_map] in P1. inversion P1; subst steps.
  destruct (proof_bytes f log) as [bs| |] eqn:EB; try discriminate. cbn [bind] in E. inversion E; subst out' code' file.
  exists bs, (map to_pstep log), L. split; auto. rewrite <- zs_of_pstep.
  assert (D : Forall (fun b => (b < 256)%N) bs /\ decode_proof f bs = Some (map zs_of log)).
  { destruct f; cbn [proof_bytes decode_proof] in *.
    - inversion EB; subst. split; [apply drat_small|apply drat_decodes].
    - destruct (bdrat_decodes log) as (bs' & B1 & B2 & B3). rewrite B1 in EB. inversion EB; subst. auto. }
  destruct D as [D1 D2]. auto 10.
Qed.

(** ** C62: there is always an answer *)
(** The clause arena is full while some of the clauses are added or solved, or
    the next clause to be added has at least 2^31 literals. *)
Definition out_of_space (select : selection) (dbg : bool) (F : list (list N)) : Prop :=
  exists F1 F2 s, F = F1 ++ F2 /\ reach select dbg F1 s /\
    (arena_full s \/ exists c r, F2 = c :: r /\ (2 ^ 31 <= N.of_nat (length c))%N).

Lemma adds_total select F : forall F0 s, built false F0 s -> valid_cnf F ->
  (exists s', add_clauses false s F = Ret s') \/ (add_clauses false s F = Panic PFull /\ out_of_space select false (F0 ++ F)).
Proof.
  induction F as [|c F IH]; intros F0 s HB HF; unfold add_clauses; cbn [foldM]; [eauto|].
  destruct (add_clause_accepts_release F0 s c HB (HF c (or_introl eq_refl))) as [(s1 & E)|[E A]]; rewrite E; cbn [bind].
  - destruct (IH (F0 ++ [c]) s1) as [(s' & E')|[E' A]].
    + eapply built_add; eauto. apply HF. left; auto.
    + intros d Hd. apply HF. right; auto.
    + left. exists s'. exact E'.
    + right. split; [exact E'|]. rewrite <- app_assoc in A. exact A.
  - right. split; auto. exists F0, (c :: F), s. split; auto. split; [apply reach_built; auto|]. destruct A as [A|A]; [left; exact A|right; eauto].
Qed.

(** In release builds, the program ends with a correct answer, whatever the
    input, unless the clause arena is full.  ([fuel] bounds the number of search
    steps.) *)
Theorem cli_answers select pf n F :
  select_ok (fun _ _ => True) select -> valid_cnf F -> (N.of_nat n <= 1073741824)%N ->
  exists fuel0, forall fuel, fuel0 <= fuel ->
    (exists out code file, cli_main select false fuel pf n F = Ret (out, code, file) /\
       (hd_error out = Some (text "s SATISFIABLE") <-> satisfiable F) /\
       (hd_error out = Some (text "s UNSATISFIABLE") <-> ~ satisfiable F)) \/
    (cli_main select false fuel pf n F = Panic PFull /\ out_of_space select false F).
Proof.
  intros Hs HF Hn. set (b := match pf with Some _ => true | None => false end). set (s0 := if b then solver_write_proof solver_new else solver_new).
  assert (HB0 : built false [] s0) by (unfold s0; destruct b; [apply built_write_proof|]; apply built_new).
  destruct (adds_total select F [] s0 HB0 HF) as [(s1 & E1)|[E1 A]].
  2:{ exists 0. intros fuel _. right. split; auto. unfold cli_main, cli_run. fold b s0. rewrite E1. reflexivity. }
  assert (HB : built false F s1) by (change F with ([] ++ F); eapply adds_built; eauto).
  assert (HR : reach select false F s1) by (apply reach_built; auto).
  destruct (solve_terminates select false F s1 Hs HR) as (fuel0 & Hf). exists fuel0. intros fuel Hfu.
  destruct (Hf fuel Hfu) as [(sat & s2 & E2)|[E2 (s3 & R3 & A3)]].
  2:{ right. split; [|exists F, [], s3; rewrite app_nil_r; auto]. unfold cli_main, cli_run. fold b s0. rewrite E1. cbn [bind]. rewrite E2. reflexivity. }
  left. destruct (cli_prints select false fuel b n F s1 sat s2 Hs HF Hn E1 E2) as (out & code & E3 & E4).
  assert (EF : exists file, (match pf, cx_proof (so_ctx s2) with Some f, Some log => let* bs := proof_bytes f log in Ret (Some bs) | _, _ => Ret None end) = Ret file).
  { destruct pf as [f|]; [|eauto]. destruct (cx_proof (so_ctx s2)) as [log|]; [|eauto]. destruct f; cbn [proof_bytes bind]; [eauto|].
    destruct (bdrat_decodes log) as (bs & -> & _). cbn [bind]. eauto. }
  destruct EF as (file & EF). exists out, code, file. split; [unfold cli_main; fold b; rewrite E3; cbn [bind]; rewrite EF; reflexivity|].
  rewrite E4. destruct sat.
  - assert (G : satisfiable F) by (eexists; eapply solve_true_satisfies; eauto). split; split; intro Q; auto; [inversion Q|contradiction].
  - pose proof (solve_false_unsat _ _ _ _ _ _ Hs HR E2) as G. split; split; intro Q; auto; [inversion Q|contradiction].
Qed.

(** An unsatisfiable formula of two variables with a proof in either format. *)
Definition unsat2 : list (list N) := [[1; 3]; [1; 2]; [0; 3]; [0; 2]]%N.
Example cli_proof_example :
  cli_main select_sort false 100 (Some FmtDrat) 2 unsat2 = Ret ([text "s UNSATISFIABLE"], 20, Some (text "1 0
")) /\
  cli_main select_sort false 100 (Some FmtBinaryDrat) 2 unsat2 = Ret ([text "s UNSATISFIABLE"], 20, Some [97; 2; 0]%N) /\
  cli_main select_sort false 100 None 2 unsat2 = Ret ([text "s UNSATISFIABLE"], 20, None) /\ valid_cnf unsat2.
Proof. split; [vm_compute; reflexivity|]. split; [vm_compute; reflexivity|]. split; [vm_compute; reflexivity|]. apply valid_cnfb_ok. reflexivity. Qed.

Print Assumptions cli_model.
Print Assumptions cli_prints.
Print Assumptions exit_code_partial.
Print Assumptions exit_code_refuted.
Print Assumptions cli_proof_file.
Print Assumptions cli_answers.
