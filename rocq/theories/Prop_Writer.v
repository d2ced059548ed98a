(** C70, C71: proof files when writing fails or the program is interrupted. *)
From Coq Require Import NArith ZArith List Bool Arith Lia Permutation String.
From Coq Require Import List.
From Verif Require Import Model_Base Model_Lit Model_Prop Model_Solver Model_Drat Model_Cli Model_Writer Spec Spec_Format Drivers Drivers_Solver
  Proof_Base Proof_Drat Proof_Writer Proof_Select Proof_Main Proof_DB Examples_Solver Prop_Drat Prop_Solver Prop_Cli.
Import ListNotations.
Local Open Scope nat_scope.
Local Open Scope list_scope.

Lemma chunks_ok f log : exists cs bs, chunks f log = Ret cs /\ proof_bytes f log = Ret bs /\ concat cs = bs.
Proof. apply chunks_bytes. Qed.

(** Closing the writer: no error means that everything is in the file. *)
Lemma close_ok w cap cs err d : dw_close w (dw_writes w cap cs dw_new) = (err, d) ->
  (err = false -> os_file (dw_os d) = concat cs /\ forall i, i < os_calls (dw_os d) -> w i = None) /\
  (err = true -> exists i, i < os_calls (dw_os d) /\ w i <> None).
Proof.
  intro E. unfold dw_close, dw_check in E. pose proof (DWI_writes w cap cs dw_new [] (DWI_new w)) as H.
  destruct (DWI_flush _ _ _ H) as [[A B] Hb]. cbn [app] in A, B. inversion E; subst. cbn [dw_os]. split; intro Q.
  - destruct (A Q) as [A1 A2]. rewrite Hb, app_nil_r in A1. auto.
  - apply (B Q).
Qed.

Lemma written_log select dbg fuel F s1 sat s2 : select_ok (fun _ _ => True) select -> valid_cnf F ->
  add_clauses dbg (solver_write_proof solver_new) F = Ret s1 -> solve select dbg fuel s1 = Ret (sat, s2) -> cx_proof (so_ctx s2) <> None.
Proof.
  intros Hs HF E1 E2 El. assert (HB : built dbg F s1) by (change F with ([] ++ F); eapply adds_built; eauto; apply built_write_proof, built_new).
  assert (HL : proof_log s1 = Some []) by (unfold proof_log; rewrite (adds_log dbg [] F _ _ HF (built_write_proof _ _ _ (built_new _)) E1); reflexivity).
  destruct (solve_keeps_log _ _ _ _ _ _ _ Hs HB E2 ltac:(congruence)) as (st & Q). unfold proof_log in Q. rewrite El in Q. discriminate.
Qed.

(** ** C70 *)
(** The lines [oc_out] are printed only if all requests to write the proof
    succeeded, and then the file holds the complete proof. *)
Theorem answer_implies_proof select dbg fuel w cap f p inp o :
  select_ok (fun _ _ => True) select ->
  (forall n F ok, inp = InClauses n F ok -> valid_cnf F) ->
  cli_io select dbg fuel w cap (Some (f, p)) inp = Ret o -> oc_out o <> [] ->
  exists n F bs steps L, inp = InClauses n F true /\ p = PathFree /\ oc_file o = Some bs /\
    (forall i, i < oc_requests o -> w i = None) /\
    decode_proof f bs = Some (map zstep_of steps) /\ drat_run F steps L /\
    (oc_out o = [text "s UNSATISFIABLE"] -> up_conflict (L ++ F) []).
Proof.
  intros Hs HF E Ho. destruct p as [|content|]; cbn [cli_io] in E; try (inversion E; subst; cbn in Ho; congruence).
  destruct inp as [| |n F ok]; try (inversion E; subst; cbn in Ho; congruence). specialize (HF n F ok eq_refl).
  destruct (add_clauses dbg (solver_write_proof solver_new) F) as [s1| |] eqn:E1; try discriminate. cbn [bind] in E. destruct ok; cbn [negb] in E.
  2:{ exfalso. apply Ho. destruct (cx_proof (so_ctx s1)); [destruct (chunks f l); try discriminate; cbn [bind] in E|]; inversion E; reflexivity. }
  destruct (solve select dbg fuel s1) as [[sat s2]| |] eqn:E2; try discriminate. cbn [bind] in E.
  destruct (cx_proof (so_ctx s2)) as [log|] eqn:El.
  2:{ exfalso. eapply written_log; eauto. }
  destruct (chunks_ok f log) as (cs & bs & Ec & Eb & Q). rewrite Ec in E. cbn [bind] in E.
  destruct (dw_close w (dw_writes w cap cs dw_new)) as [err d] eqn:Ed. destruct (close_ok _ _ _ _ _ Ed) as [C _].
  destruct err; [exfalso; apply Ho; inversion E; reflexivity|]. destruct (C eq_refl) as [C1 C2].
  assert (G : exists vs, (if sat then v_lines (solver_value s2) n else Ret []) = Ret vs /\
    o = mkOutcome ((if sat then s_sat else s_unsat) :: vs) 20 (Some bs) (os_calls (dw_os d))).
  { destruct sat; [destruct (v_lines (solver_value s2) n) as [vs| |]; try discriminate; cbn [bind] in E|]; inversion E; subst; rewrite C1; eauto. }
  destruct G as (vs & Ev & ->). cbn [oc_out oc_file oc_requests].
  assert (EM : cli_main select dbg fuel (Some f) n F = Ret ((if sat then s_sat else s_unsat) :: vs, 20, Some bs)).
  { unfold cli_main, cli_run. rewrite E1. cbn [bind]. rewrite E2. cbn [bind]. destruct sat.
    - rewrite Ev. cbn [bind]. rewrite El, Eb. reflexivity.
    - inversion Ev; subst. cbn [bind]. rewrite El, Eb. reflexivity. }
  destruct (cli_proof_file _ _ _ _ _ _ _ _ _ Hs HF EM) as (bs' & steps & L & F1 & _ & F3 & F4 & F5). inversion F1; subst bs'.
  exists n, F, bs, steps, L. auto 10.
Qed.

(** Without an answer the exit code says so, and every failed request to write
    the proof is one of the reasons for that. *)
Theorem failed_run_detected select dbg fuel w cap pf inp o :
  cli_io select dbg fuel w cap pf inp = Ret o ->
  (oc_out o = [] <-> oc_code o = 1) /\ (oc_out o <> [] <-> oc_code o = 20) /\
  (forall i, i < oc_requests o -> w i <> None -> oc_out o = []).
Proof.
  intro E.
  assert (A : (oc_out o = [] /\ oc_code o = 1) \/ (oc_out o <> [] /\ oc_code o = 20 /\ forall i, i < oc_requests o -> w i = None)).
  { unfold cli_io in E. destruct pf as [[f [|content|]]|]; try (inversion E; subst; left; split; reflexivity);
      (destruct inp as [| |n F ok]; try (inversion E; subst; left; split; reflexivity));
      (match type of E with bind ?x _ = _ => destruct x as [s1| |]; try discriminate end; cbn [bind] in E);
      (destruct ok; cbn [negb] in E; [|left; repeat (match type of E with
         | match ?x with Some _ => _ | None => _ end = _ => destruct x
         | bind ?x _ = _ => destruct x as [?| |]; try discriminate; cbn [bind] in E end); inversion E; subst; split; reflexivity]);
      (destruct (solve select dbg fuel s1) as [[sat s2]| |]; try discriminate; cbn [bind] in E).
    - destruct (cx_proof (so_ctx s2)) as [log|].
      + destruct (chunks f log) as [cs| |]; try discriminate. cbn [bind] in E. destruct (dw_close w (dw_writes w cap cs dw_new)) as [err d] eqn:Ed.
        destruct (close_ok _ _ _ _ _ Ed) as [C _]. destruct err; [left; inversion E; subst; split; reflexivity|]. right. destruct (C eq_refl) as [_ C2].
        destruct sat; [destruct (v_lines (solver_value s2) n) as [vs| |]; try discriminate; cbn [bind] in E|]; inversion E; subst;
          (split; [discriminate|]; split; [reflexivity|exact C2]).
      + right. destruct sat; [destruct (v_lines (solver_value s2) n) as [vs| |]; try discriminate; cbn [bind] in E|]; inversion E; subst;
          (split; [discriminate|]; split; [reflexivity|cbn; lia]).
    - right. destruct sat; [destruct (v_lines (solver_value s2) n) as [vs| |]; try discriminate; cbn [bind] in E|]; inversion E; subst;
          (split; [discriminate|]; split; [reflexivity|cbn; lia]). }
  destruct A as [[A1 A2]|(A1 & A2 & A3)].
  - split; [tauto|]. split; [|auto]. split; [contradiction|]. rewrite A2. discriminate.
  - split; [rewrite A2; split; [contradiction|discriminate]|]. split; [tauto|]. intros i Hi Hw. exfalso. apply Hw. auto.
Qed.

(** A file that exists is left as it is. *)
Theorem proof_not_overwritten select dbg fuel w cap f content inp :
  exists o, cli_io select dbg fuel w cap (Some (f, PathExists content)) inp = Ret o /\
    oc_file o = Some content /\ oc_out o = [] /\ oc_code o = 1.
Proof. eexists. split; [reflexivity|]. auto. Qed.

(** If the path cannot be used, or the input cannot be read up to its end, there is
    no answer, the exit code is 1, and nothing is written: a file is created at
    most, and it stays empty. *)
Theorem input_error_writes_nothing select dbg fuel w cap pf inp o :
  (exists f path, pf = Some (f, path) /\ path <> PathFree) \/ (forall n F ok, inp = InClauses n F ok -> valid_cnf F /\ ok = false) ->
  cli_io select dbg fuel w cap pf inp = Ret o ->
  oc_out o = [] /\ oc_code o = 1 /\ oc_requests o = 0 /\
  oc_file o = match pf with
              | None => None
              | Some (_, PathFree) => Some []
              | Some (_, PathExists content) => Some content
              | Some (_, PathUnusable) => None
              end.
Proof.
  intros HF E. unfold cli_io in E. destruct pf as [[f [|content|]]|]; try (inversion E; subst; auto; fail);
    (destruct HF as [(f0 & path & Q & NF)|HF]; [congruence|]).
  - destruct inp as [| |n F ok]; try (inversion E; subst; auto; fail). destruct (HF n F ok eq_refl) as [V ->]. cbn [negb] in E.
    destruct (add_clauses dbg (solver_write_proof solver_new) F) as [s1| |] eqn:E1; try discriminate. cbn [bind] in E.
    rewrite (adds_log dbg [] F _ _ V (built_write_proof _ _ _ (built_new _)) E1) in E. cbn [cx_proof so_ctx solver_write_proof] in E.
    assert (C : chunks f [] = Ret []) by (destruct f; reflexivity).
    change (cx_proof (so_ctx (solver_write_proof solver_new))) with (Some (@nil proof_step)) in E. cbv iota beta in E. rewrite C in E. cbn [bind] in E.
    inversion E; subst. cbn [oc_out oc_code oc_requests oc_file]. auto.
  - destruct inp as [| |n F ok]; try (inversion E; subst; auto; fail). destruct (HF n F ok eq_refl) as [V ->]. cbn [negb] in E.
    destruct (add_clauses dbg solver_new F) as [s1| |] eqn:E1; try discriminate. cbn [bind] in E. inversion E; subst. auto.
Qed.
Example input_error_example :
  (exists o, cli_io select_sort true 100 (fun _ => None) 4 (Some (FmtDrat, PathFree)) (InClauses 2 unsat2 false) = Ret o /\ oc_file o = Some []) /\
  (exists o, cli_io select_sort true 100 (fun _ => None) 4 (Some (FmtDrat, PathFree)) InNoHeader = Ret o /\ oc_file o = Some []) /\
  (exists o, cli_io select_sort true 100 (fun _ => None) 4 (Some (FmtDrat, PathUnusable)) (InClauses 2 unsat2 true) = Ret o /\ oc_file o = None).
Proof. repeat split; eexists; (split; [vm_compute; reflexivity|reflexivity]). Qed.

(** If nothing fails, the answer and the file are those of [cli_main]. *)
Theorem no_failure_no_difference select dbg fuel cap f n F out code file :
  select_ok (fun _ _ => True) select -> valid_cnf F ->
  cli_main select dbg fuel (Some f) n F = Ret (out, code, file) ->
  exists k, cli_io select dbg fuel (fun _ => None) cap (Some (f, PathFree)) (InClauses n F true) = Ret (mkOutcome out code file k).
Proof.
  intros Hs HF E. unfold cli_main, cli_run in E. cbn [cli_io].
  destruct (add_clauses dbg (solver_write_proof solver_new) F) as [s1| |] eqn:E1; try discriminate. cbn [bind negb] in *.
  destruct (solve select dbg fuel s1) as [[sat s2]| |] eqn:E2; try discriminate. cbn [bind] in *.
  assert (HP : cx_proof (so_ctx s2) <> None) by (eapply written_log; eauto).
  assert (Q : exists vs, (if sat then v_lines (solver_value s2) n else Ret []) = Ret vs).
  { destruct sat; [destruct (v_lines (solver_value s2) n) as [vs| |]; try discriminate|]; eauto. }
  destruct Q as (vs & Ev). destruct (cx_proof (so_ctx s2)) as [log|] eqn:El; [|congruence].
  destruct (chunks_ok f log) as (cs & bs & Ec & Eb & Q). rewrite Ec. cbn [bind].
  destruct (dw_close (fun _ => None) (dw_writes (fun _ => None) cap cs dw_new)) as [err d] eqn:Ed. destruct (close_ok _ _ _ _ _ Ed) as [C D].
  destruct err; [destruct (D eq_refl) as (i & _ & Hi); congruence|]. destruct (C eq_refl) as [C1 _]. rewrite C1, Q.
  exists (os_calls (dw_os d)). destruct sat.
  - rewrite Ev in *. cbn [bind] in *. rewrite El, Eb in E. inversion E; subst. reflexivity.
  - cbn [bind] in E. rewrite El, Eb in E. inversion E; subst. reflexivity.
Qed.

(** The three runs below differ in the first write request only: it succeeds, or
    it fails after one byte; the file exists already. *)
Example cli_io_example :
  cli_io select_sort false 100 (fun _ => None) 4 (Some (FmtDrat, PathFree)) (InClauses 2 unsat2 true) =
    Ret (mkOutcome [text "s UNSATISFIABLE"] 20 (Some (text "1 0
")) 1) /\
  cli_io select_sort false 100 (fun i => if i =? 0 then Some 1 else None) 4 (Some (FmtDrat, PathFree)) (InClauses 2 unsat2 true) =
    Ret (mkOutcome [] 1 (Some (text "1")) 1) /\
  cli_io select_sort false 100 (fun _ => None) 4 (Some (FmtDrat, PathExists (text "old"))) (InClauses 2 unsat2 true) =
    Ret (mkOutcome [] 1 (Some (text "old")) 0).
Proof. split; [|split]; vm_compute; reflexivity. Qed.

(** ** C71 *)
(** The program stops at some point during the search, for instance because it is
    killed: some of the slices of the proof logged so far were handed to the
    writer, and any of its write requests may have been cut short.  The content
    of the file consists of complete steps of a valid proof and a proper part of
    the next step; a reader of the proof notices the missing part, or reads a
    valid proof. *)
Theorem interrupted_proof select dbg F s steps log f w cap cs k :
  select_ok (fun _ _ => True) select -> reach select dbg F s ->
  proof_log s = Some steps -> cx_proof (so_ctx s) = Some log -> chunks f log = Ret cs ->
  let bs := os_file (dw_os (dw_writes w cap (firstn k cs) dw_new)) in
  (exists b1 tail pre post L, bs = b1 ++ tail /\ steps = pre ++ post /\ drat_run F pre L /\
     decode_proof f b1 = Some (map zstep_of pre) /\
     (tail = [] \/ exists rest st post', post = st :: post' /\ rest <> [] /\ decode_proof f (tail ++ rest) = Some [zstep_of st])) /\
  (decode_proof f bs = None \/ exists pre post L, steps = pre ++ post /\ drat_run F pre L /\ decode_proof f bs = Some (map zstep_of pre)).
Proof.
  intros Hs HR Hp El Ec bs. unfold proof_log in Hp. rewrite El in Hp. cbn [option_map] in Hp. inversion Hp; subst steps. clear Hp.
  destruct (chunks_ok f log) as (cs' & all & Ec' & Eb & Q). rewrite Ec in Ec'. inversion Ec'; subst cs'. clear Ec'.
  assert (P : exists r, all = bs ++ r).
  { pose proof (DWI_writes w cap (firstn k cs) dw_new [] (DWI_new w)) as [A B]. cbn [app] in A, B. fold bs in A, B.
    assert (T : all = concat (firstn k cs) ++ concat (skipn k cs)) by (rewrite <- concat_app, firstn_skipn; auto).
    destruct (dw_err (dw_writes w cap (firstn k cs) dw_new)).
    - destruct (B eq_refl) as [(r & Er) _]. rewrite Er, <- app_assoc in T. eauto.
    - destruct (A eq_refl) as [A1 _]. rewrite <- A1, <- app_assoc in T. eauto. }
  destruct P as (r & P). rewrite P in Eb. destruct (cut_steps f log bs r Eb) as (pre & post & b1 & tail & E1 & E2 & E3 & E4).
  assert (Dec : forall l b, proof_bytes f l = Ret b -> decode_proof f b = Some (map zs_of l)).
  { intros l b E. destruct f; cbn [proof_bytes decode_proof] in *.
    - inversion E; subst. apply drat_decodes.
    - destruct (bdrat_decodes l) as (b' & B1 & _ & B3). rewrite B1 in E. inversion E; subst. auto. }
  assert (Run : forall i, exists L, drat_run F (map to_pstep (firstn i log)) L).
  { intro i. destruct (log_inv select dbg F s (map to_pstep log) Hs HR) as (L & D); [unfold proof_log; rewrite El; reflexivity|].
    rewrite <- (firstn_skipn i log), map_app in D. apply drat_prefix in D. exact D. }
  assert (Pre : forall p q, log = p ++ q -> exists L, drat_run F (map to_pstep p) L).
  { intros p q ->. destruct (Run (length p)) as (L & D). rewrite firstn_app, Nat.sub_diag, firstn_all, app_nil_r in D. eauto. }
  split.
  - destruct (Pre _ _ E1) as (L & D). exists b1, tail, (map to_pstep pre), (map to_pstep post), L.
    split; [auto|]. split; [rewrite E1, map_app; reflexivity|]. split; [exact D|]. split; [rewrite <- zs_of_pstep; auto|].
    destruct E4 as [->|(st & post' & t2 & -> & E5 & E6)]; [left; auto|right]. exists t2, (to_pstep st), (map to_pstep post').
    split; [reflexivity|]. split; auto. rewrite (Dec _ _ E5). destruct st; reflexivity.
  - destruct E4 as [->|(st & post' & t2 & -> & E5 & E6)].
    + right. destruct (Pre _ _ E1) as (L & D). exists (map to_pstep pre), (map to_pstep post), L. split; [rewrite E1, map_app; reflexivity|]. split; [exact D|].
      rewrite E3, app_nil_r, <- zs_of_pstep. auto.
    + destruct tail as [|x tail].
      { right. destruct (Pre _ _ E1) as (L & D). exists (map to_pstep pre), (map to_pstep (st :: post')), L. split; [rewrite E1, map_app; reflexivity|]. split; [exact D|].
        rewrite E3, app_nil_r, <- zs_of_pstep. auto. }
      rewrite E3. destruct f; cbn [proof_bytes decode_proof] in *.
      * inversion E2; subst b1. inversion E5 as [E7]. unfold drat_output in E7. cbn [flat_map] in E7. rewrite app_nil_r in E7.
        destruct (drat_cut pre st (x :: tail) t2 E7 E6 ltac:(discriminate)) as [-> | ->]; [left; reflexivity|right].
        destruct (Pre (pre ++ [st]) post') as (L & D); [rewrite E1, <- app_assoc; reflexivity|].
        exists (map to_pstep (pre ++ [st])), (map to_pstep post'), L. split; [rewrite E1, <- map_app, <- app_assoc; reflexivity|]. split; [exact D|].
        rewrite <- zs_of_pstep. reflexivity.
      * left. unfold decode_bdrat. unfold bdrat_output in E5. cbn [mapM] in E5.
        destruct (bdrat_step st) as [y| |] eqn:Ey; try discriminate. cbn [bind concat] in E5. rewrite app_nil_r in E5. inversion E5; subst y.
        eapply bdrat_cut; eauto. discriminate.
Qed.

(** If no request failed, all but the bytes in the buffer are in the file. *)
Lemma dw_buf_bound w cap cs : forall d, length (dw_buf d) <= cap -> length (dw_buf (dw_writes w cap cs d)) <= cap.
Proof.
  induction cs as [|c cs IH]; intros d H; [exact H|]. unfold dw_writes in *. cbn [fold_left]. apply IH. unfold dw_write.
  destruct (Nat.leb_spec (length (dw_buf d) + length c) cap) as [G|G]; [cbn [dw_buf]; rewrite app_length; lia|].
  set (k := if length c <? cap then cap - length (dw_buf d) else 0). set (d1 := dw_flush w _).
  assert (B : dw_buf d1 = []) by (unfold d1, dw_flush; cbn [dw_err dw_os dw_buf]; destruct (dw_err d); [reflexivity|]; destruct (os_write _ _ _); reflexivity).
  destruct (Nat.ltb_spec (length (skipn k c)) cap) as [G1|G1]; [cbn [dw_buf]; rewrite B; cbn [app]; lia|].
  destruct (dw_err d1); [rewrite B; cbn; lia|]. destruct (os_write _ _ _) as [ok o]. cbn [dw_buf]. rewrite B. cbn. lia.
Qed.
Theorem buffered_loss w cap cs : (forall i, w i = None) ->
  let d := dw_writes w cap cs dw_new in
  exists lost, concat cs = os_file (dw_os d) ++ lost /\ length lost <= cap.
Proof.
  intros Hw d. pose proof (DWI_writes w cap cs dw_new [] (DWI_new w)) as [A B]. fold d in A, B. cbn [app] in A, B.
  destruct (dw_err d); [destruct (B eq_refl) as [_ (i & _ & Q)]; congruence|]. destruct (A eq_refl) as [A1 _].
  exists (dw_buf d). split; auto. apply dw_buf_bound. cbn. lia.
Qed.

(** The proof of four pigeons in three holes, 34 bytes in text form.  The third
    write request fails after three bytes; 19 bytes are in the file, two complete
    steps and a part of the third. *)
Example interrupted_example :
  let s := snd (outcome true php4) in let w := fun i => if i =? 2 then Some 3 else None in
  exists log cs, cx_proof (so_ctx s) = Some log /\ chunks FmtDrat log = Ret cs /\
    os_file (dw_os (dw_writes w 8 (firstn 30 cs) dw_new)) = text "-8 4 1 0
-10 1 0
-2" /\ decode_drat (text "-8 4 1 0
-10 1 0
-2") = None.
Proof.
  eexists _, _. split; [vm_compute; reflexivity|]. split; [reflexivity|]. split; vm_compute; reflexivity.
Qed.

Print Assumptions answer_implies_proof.
Print Assumptions failed_run_detected.
Print Assumptions proof_not_overwritten.
Print Assumptions input_error_writes_nothing.
Print Assumptions no_failure_no_difference.
Print Assumptions interrupted_proof.
Print Assumptions buffered_loss.
