(** C63: log output. *)
From Coq Require Import Ascii String.
From Coq Require Import NArith ZArith List Bool Arith Lia ZifyN ZifyNat ZifyBool.
From Verif Require Import Model_Base Model_Lit Model_Prop Model_Solver Model_Drat Model_Cli Model_Log Spec Spec_Format Drivers_Solver Proof_Select
  Prop_Cli.
Import ListNotations.
Local Open Scope list_scope.

(** ** Words *)
(** Messages: level, source location and pieces. *)
Definition message : Type := log_level * (list N * list N) * list (list N).
Definition msg_level (m : message) : log_level := fst (fst m).
(** No line end in the pieces and the source location. *)
Definition one_line (m : message) : Prop :=
  let '(_, (file, line), pieces) := m in ~ In 10%N file /\ ~ In 10%N line /\ forall p, In p pieces -> ~ In 10%N p.
Definition log_message (lg : logger) (m : message) : list N :=
  let '(l, (file, line), pieces) := m in log lg l file line pieces.
(** The lines of a text of which every line is terminated. *)
Fixpoint lines (cur bs : list N) : list (list N) :=
  match bs with
  | [] => match cur with [] => [] | _ => [cur] end
  | b :: r => if (b =? 10)%N then cur :: lines [] r else lines (cur ++ [b]) r
  end.
Definition is_comment (l : list N) : bool := match l with b :: _ => (b =? 99)%N | [] => false end.

(** Loggers after any history of configuration calls; the first argument is the
    level set last. *)
Inductive configured : option log_level -> logger -> Prop :=
| conf_new : configured None logger_new
| conf_level o lg o' : configured o lg -> configured o' (set_log_level lg o')
| conf_source o lg b : configured o lg -> configured o (log_source_locations lg b).

(** ** A message is printed if and only if its level is at most the one set *)
Theorem log_filter o lg m : configured o lg ->
  (log_message lg m <> [] <-> exists l, o = Some l /\ (level_u8 (msg_level m) <= level_u8 l)%N).
Proof.
  intro H. assert (E : lg_limit lg = match o with Some l => (level_u8 l + 1)%N | None => 0%N end).
  { induction H as [|o lg o' H IH|o lg b H IH]; cbn; auto. }
  destruct m as [[l [file line]] pieces]. cbn [log_message msg_level fst]. unfold log. rewrite E.
  destruct (N.ltb_spec (level_u8 l) (match o with Some l => (level_u8 l + 1)%N | None => 0%N end)) as [G|G].
  - destruct o as [l'|]; [|lia]. split; [intros _; exists l'; split; auto; lia|]. intros _ Z. unfold perform_log in Z.
    apply app_eq_nil in Z as [_ Z]. destruct (lg_source lg); discriminate.
  - split; [intro Z; congruence|]. intros (l' & -> & Q). lia.
Qed.

(** ** A printed message is a comment line *)
Lemma lines_one l : forall cur r, ~ In 10%N l -> lines cur (l ++ 10%N :: r) = (cur ++ l) :: lines [] r.
Proof.
  induction l as [|b l IH]; intros cur r H; cbn [app lines]; [rewrite app_nil_r; reflexivity|].
  destruct (N.eqb_spec b 10) as [->|N]; [exfalso; apply H; left; auto|]. rewrite IH by (intro; apply H; right; auto). rewrite <- app_assoc. reflexivity.
Qed.
Lemma pieces_fold pieces : forall l, fold_left add_piece pieces l = l ++ flat_map (fun p => 32%N :: p) pieces.
Proof.
  induction pieces as [|p ps IH]; intro l; cbn [fold_left flat_map]; [rewrite app_nil_r; auto|]. rewrite IH. unfold add_piece. rewrite <- app_assoc. reflexivity.
Qed.
Lemma log_shape lg m : one_line m -> log_message lg m = [] \/
  exists body, log_message lg m = 99%N :: body ++ [10%N] /\ ~ In 10%N body.
Proof.
  destruct m as [[l [file line]] pieces]. intros (H1 & H2 & H3). cbn [log_message]. unfold log. destruct (_ <? _)%N; auto. right.
  unfold perform_log. rewrite pieces_fold.
  assert (P : exists q, log_prefix l = 99%N :: q /\ ~ In 10%N q).
  { destruct l; (eexists; split; [reflexivity|]; cbn; intuition discriminate). }
  destruct P as (q & -> & Hq).
  assert (F : ~ In 10%N (flat_map (fun p => 32%N :: p) pieces)).
  { intro G. apply in_flat_map in G as (p & Hp & [G|G]); [discriminate|]. apply (H3 p Hp G). }
  destruct (lg_source lg).
  - exists (q ++ flat_map (fun p => 32%N :: p) pieces ++ [32; 27; 91; 51; 52; 109]%N ++ file ++ [58]%N ++ line ++ [27; 91; 48; 109]%N). split.
    + cbn [app]. f_equal. rewrite <- !app_assoc. cbn [app]. rewrite <- !app_assoc. cbn [app]. rewrite <- !app_assoc. reflexivity.
    + rewrite !in_app_iff. cbn. intuition discriminate.
  - exists (q ++ flat_map (fun p => 32%N :: p) pieces). split; [reflexivity|]. rewrite in_app_iff. tauto.
Qed.

(** ** The log does not disturb the result *)
(** Whatever is logged, ignoring the comment lines of the output leaves exactly
    the result lines. *)
Theorem log_transparent lg ms out :
  (forall m, In m ms -> one_line m) ->
  (forall l, In l out -> ~ In 10%N l /\ is_comment l = false) ->
  filter (fun l => negb (is_comment l)) (lines [] (flat_map (log_message lg) ms ++ print_lines out)) = out.
Proof.
  intros Hm Ho. induction ms as [|m ms IH]; cbn [flat_map app].
  - induction out as [|l out IHo]; [reflexivity|]. unfold print_lines in *. cbn [flat_map]. rewrite <- app_assoc. cbn [app].
    destruct (Ho l (or_introl eq_refl)) as [H1 H2]. rewrite lines_one by auto. cbn [app filter]. rewrite H2. cbn [negb]. f_equal. apply IHo. intros; apply Ho; right; auto.
  - destruct (log_shape lg m (Hm m (or_introl eq_refl))) as [->|(body & -> & Hb)]; cbn [app]; [apply IH; intros; apply Hm; right; auto|].
    rewrite <- !app_assoc. cbn [app]. change (99%N :: body ++ 10%N :: flat_map (log_message lg) ms ++ print_lines out)
      with ((99%N :: body) ++ 10%N :: (flat_map (log_message lg) ms ++ print_lines out)).
    rewrite lines_one by (intros [G|G]; [discriminate|contradiction]). cbn [app filter is_comment]. cbn [negb]. change (99 =? 99)%N with true. cbn [negb]. apply IH. intros; apply Hm; right; auto.
Qed.

(** The result lines of the program are such lines. *)
Lemma digits_ok u : ~ In 10%N (uint_bytes u).
Proof. induction u; cbn [uint_bytes]; intros H; try contradiction; destruct H as [H|H]; try discriminate; contradiction. Qed.
Lemma ascii_ok z : ~ In 10%N (ascii_digits z).
Proof. unfold ascii_digits. rewrite in_app_iff. intros [H|H]; [destruct (_ <? _)%Z; cbn in H; intuition discriminate|]. eapply digits_ok; eauto. Qed.
Lemma v_loop_ok value is : forall out line out' line',
  (forall l, In l out -> ~ In 10%N l /\ is_comment l = false) -> ~ In 10%N line ->
  foldM (v_step value) is (out, line) = Ret (out', line') ->
  (forall l, In l out' -> ~ In 10%N l /\ is_comment l = false) /\ ~ In 10%N line'.
Proof.
  induction is as [|i is IH]; intros out line out' line' H1 H2 E; cbn [foldM] in E; [inversion E; subst; auto|].
  destruct (v_step value (out, line) i) as [[o1 l1]| |] eqn:E1; try discriminate. cbn [bind] in E. eapply IH; [| |exact E].
  - unfold v_step in E1. destruct (lit_from_index _ _) as [lt| |]; try discriminate. cbn [bind] in E1. destruct (value _) as [[v|]| |]; try discriminate; cbn [bind] in E1; [|inversion E1; subst; auto].
    destruct (_ <? _); inversion E1; subst; auto. intros l Hl. apply in_app_or in Hl as [Hl|[<-|[]]]; auto. split; [|reflexivity]. intros [G|G]; [discriminate|contradiction].
  - unfold v_step in E1. destruct (lit_from_index _ _) as [lt| |]; try discriminate. cbn [bind] in E1. destruct (value _) as [[v|]| |]; try discriminate; cbn [bind] in E1; [|inversion E1; subst; auto].
    assert (V : ~ In 10%N (v_item lt v)) by (unfold v_item; intros [G|G]; [discriminate|eapply ascii_ok; eauto]).
    destruct (_ <? _); inversion E1; subst; auto. rewrite in_app_iff. tauto.
Qed.
Lemma cli_lines_ok select dbg fuel proof n F out code s : cli_run select dbg fuel proof n F = Ret (out, code, s) ->
  forall l, In l out -> ~ In 10%N l /\ is_comment l = false.
Proof.
  intro E. unfold cli_run in E. destruct (add_clauses _ _ _); try discriminate. cbn [bind] in E. destruct (solve _ _ _ _) as [[[] s2]| |]; try discriminate; cbn [bind] in E.
  - destruct (v_lines _ _) as [vs| |] eqn:EV; try discriminate. cbn [bind] in E. inversion E; subst. intros l [<-|Hl]; [split; [cbn; intuition discriminate|reflexivity]|].
    unfold v_lines in EV. destruct (foldM _ _ _) as [[o line]| |] eqn:EF; try discriminate. cbn [bind] in EV. inversion EV; subst.
    destruct (v_loop_ok _ _ _ _ _ _ (fun l (H : In l []) => match H with end) (fun H : In 10%N [] => match H with end) EF) as [A B].
    apply in_app_or in Hl as [Hl|Hl]; auto. apply in_app_or in Hl as [Hl|[<-|[]]]; [|split; [cbn; intuition discriminate|reflexivity]].
    destruct line as [|b line]; [contradiction|]. destruct Hl as [<-|[]]. split; [|reflexivity]. intros [G|G]; [discriminate|contradiction].
  - inversion E; subst. intros l [<-|[]]. split; [cbn; intuition discriminate|reflexivity].
Qed.
(** So the result of a run can be read from its standard output at every
    verbosity. *)
Theorem cli_output_readable select dbg fuel proof n F out code s verbose quiet src ms :
  cli_run select dbg fuel proof n F = Ret (out, code, s) -> (forall m, In m ms -> one_line m) ->
  filter (fun l => negb (is_comment l))
    (lines [] (flat_map (log_message (cli_logger verbose quiet src)) ms ++ print_lines out)) = out.
Proof. intros E Hm. apply log_transparent; auto. eapply cli_lines_ok; eauto. Qed.

(** ** Verbosity options *)
(** Without options, messages of level Info are printed; every further -v prints
    all messages printed before and one more level, up to all four; -q prints
    nothing.  (The two options exclude each other.) *)
Theorem cli_verbosity verbose quiet src m : (verbose = 0 \/ quiet = 0)%N ->
  (log_message (cli_logger verbose quiet src) m <> [] <-> (quiet = 0 /\ level_u8 (msg_level m) <= verbose)%N).
Proof.
  intro H.
  assert (C : configured (cli_log_level verbose quiet) (cli_logger verbose quiet src)) by (unfold cli_logger; apply conf_source; eapply conf_level; apply conf_new).
  rewrite (log_filter _ _ m C). unfold cli_log_level.
  assert (B : (level_u8 (msg_level m) <= 3)%N) by (destruct (msg_level m); cbn; lia).
  destruct (N.eqb_spec verbose 0) as [->|V0]; destruct (N.eqb_spec quiet 0) as [->|Q0]; cbn [andb].
  - split; [intros (l & El & G); inversion El; subst; cbn in G; lia|]. intros [_ G]. exists LInfo. split; auto.
  - cbn. split; [intros (l & El & G); discriminate|intros [G _]; lia].
  - destruct (N.eqb_spec verbose 1) as [->|V1]; [|destruct (N.eqb_spec verbose 2) as [->|V2]].
    + split; [intros (l & El & G); inversion El; subst; cbn in G; lia|]. intros [_ G]. exists LVerbose. split; auto.
    + split; [intros (l & El & G); inversion El; subst; cbn in G; lia|]. intros [_ G]. exists LDebug. split; auto.
    + split; [intros (l & El & G); lia|]. intros [_ G]. exists LTrace. split; auto.
  - lia.
Qed.

(** ** The logging macros *)
(** What an argument contributes to the line: a blank, the name with a colon and a
    blank if it has one, and the value; of a string literal only its text. *)
Definition arg_text (a : log_arg) : list N :=
  match la_expr a, la_name a with
  | EStr s, _ => 32%N :: s
  | EValue v, Some n => 32%N :: n ++ 58%N :: 32%N :: v
  | EValue v, None => 32%N :: v
  end.
Definition items_text (is : list log_item) : list N := flat_map (fun i => 32%N :: item_piece i) is.
Lemma combine_text i acc : items_text (rev (combine_item acc i)) = items_text (rev acc) ++ items_text [i].
Proof.
  unfold combine_item. destruct i as [m|v], acc as [|[l|w] acc]; cbn [rev items_text]; unfold items_text; rewrite ?flat_map_app; cbn [flat_map app item_piece];
    rewrite ?app_nil_r, <- ?app_assoc; cbn [app]; auto.
Qed.
Lemma combine_fold is : forall acc, items_text (rev (fold_left combine_item is acc)) = items_text (rev acc) ++ items_text is.
Proof.
  induction is as [|i is IH]; intro acc; cbn [fold_left]; [unfold items_text at 3; cbn; rewrite app_nil_r; auto|].
  rewrite IH, combine_text, <- app_assoc. f_equal. unfold items_text. cbn [flat_map]. rewrite app_nil_r. reflexivity.
Qed.
(** A macro call prints the texts of its arguments in order, although adjacent
    constant parts are combined into one, and nothing if the level is not active. *)
Theorem log_macro_text lg l file line args :
  log_macro lg l file line args =
    if (level_u8 l <? lg_limit lg)%N then
      log_prefix l ++ flat_map arg_text args ++
      (if lg_source lg then text " " ++ 27%N :: text "[34m" ++ file ++ text ":" ++ line ++ 27%N :: text "[0m" else []) ++ [10%N]
    else [].
Proof.
  unfold log_macro, log. destruct (_ <? _)%N; auto. unfold perform_log. rewrite pieces_fold, flat_map_concat_map, map_map, <- flat_map_concat_map.
  change (flat_map (fun x => 32%N :: item_piece x) (log_items args)) with (items_text (log_items args)). unfold log_items. rewrite combine_fold. cbn [rev items_text flat_map app].
  rewrite <- app_assoc. f_equal.
  assert (E : items_text (flat_map arg_items args) = flat_map arg_text args).
  { induction args as [|a args IH]; auto. cbn [flat_map]. unfold items_text in *. rewrite flat_map_app, IH. f_equal.
    unfold arg_items, arg_text. destruct (la_expr a); [cbn; rewrite app_nil_r; auto|]. destruct (la_name a); cbn; rewrite ?app_nil_r; auto.
    rewrite <- app_assoc. reflexivity. }
  f_equal; [exact E|]. destruct (lg_source lg); [|reflexivity]. cbn. f_equal. f_equal. f_equal. f_equal. f_equal. f_equal. rewrite <- app_assoc. cbn. f_equal. f_equal. rewrite <- app_assoc. reflexivity.
Qed.
(** In terms of the calls that configured the logger since it was created: the level
    set last decides whether anything is printed (at first nothing is), and the last
    call of [log_source_locations] whether the source location is appended (at first
    it is not). *)
Inductive log_call := CallLevel (o : option log_level) | CallSource (b : bool).
Definition log_apply (lg : logger) (c : log_call) : logger :=
  match c with CallLevel o => set_log_level lg o | CallSource b => log_source_locations lg b end.
Fixpoint last_level (cs : list log_call) : option log_level :=
  match cs with [] => None | CallLevel o :: _ => o | _ :: r => last_level r end.
Fixpoint last_source (cs : list log_call) : bool :=
  match cs with [] => false | CallSource b :: _ => b | _ :: r => last_source r end.
Definition level_tag (l : log_level) : list N :=
  text (match l with LInfo => "c" | LVerbose => "c V:" | LDebug => "c D:" | LTrace => "c T:" end).
Definition verbosity (l : log_level) : nat := match l with LInfo => 0 | LVerbose => 1 | LDebug => 2 | LTrace => 3 end.
Theorem log_configured cs l file line args :
  log_macro (fold_left log_apply cs logger_new) l file line args =
    match last_level (rev cs) with
    | Some limit => if verbosity l <=? verbosity limit then
        level_tag l ++ flat_map arg_text args ++
        (if last_source (rev cs) then text " " ++ 27%N :: text "[34m" ++ file ++ text ":" ++ line ++ 27%N :: text "[0m" else []) ++ [10%N]
      else []
    | None => []
    end.
Proof.
  rewrite log_macro_text. assert (E : lg_limit (fold_left log_apply cs logger_new) = match last_level (rev cs) with Some l => (level_u8 l + 1)%N | None => 0%N end /\
    lg_source (fold_left log_apply cs logger_new) = last_source (rev cs)).
  { induction cs as [|c cs [IH1 IH2]] using rev_ind; [split; reflexivity|]. rewrite fold_left_app, rev_app_distr. cbn [fold_left rev app]. destruct c; cbn; split; auto. }
  destruct E as [-> ->]. destruct (last_level (rev cs)) as [limit|]; [|destruct l; reflexivity]. destruct l, limit; reflexivity.
Qed.
(** The level is set twice and source locations are switched on. *)
Example log_configured_example :
  log_macro (fold_left log_apply [CallLevel None; CallSource true; CallLevel (Some LDebug)] logger_new) LVerbose (text "a.rs") (text "7") [mkArg None (EStr (text "hi"))] =
    text "c V: hi " ++ 27%N :: text "[34ma.rs:7" ++ 27%N :: text "[0m
" /\
  log_macro logger_new LInfo (text "a.rs") (text "7") [] = [] /\
  log_macro (fold_left log_apply [CallLevel (Some LInfo)] logger_new) LInfo (text "a.rs") (text "7") [mkArg None (EStr (text "hi"))] = text "c hi
".
Proof. repeat split; reflexivity. Qed.
(** [trace!(ctx, "1-uip", clause = derived)] (conflict_analysis.rs 190) *)
Example log_macro_example :
  log_items [mkArg None (EStr (text "1-uip")); mkArg (Some (text "clause")) (EValue (text "[1, -2]"))] =
    [IMessage (text "1-uip clause:"); IValue (text "[1, -2]")] /\
  log_macro (cli_logger 3 0 false) LTrace [] [] [mkArg None (EStr (text "1-uip")); mkArg (Some (text "clause")) (EValue (text "[1, -2]"))] =
    text "c T: 1-uip clause: [1, -2]
".
Proof. split; reflexivity. Qed.

(** With -v, a message of level Verbose is printed and one of level Debug is not. *)
Example log_example :
  let v := (LVerbose, (text "search.rs", text "55"), [text "unsatisfiable"]) in
  let d := (LDebug, (text "search.rs", text "112"), [text "restart"]) in
  flat_map (log_message (cli_logger 1 0 false)) [v; d] = text "c V: unsatisfiable
" /\ one_line v /\ one_line d /\ log_message (cli_logger 0 1 false) v = [].
Proof.
  split; [reflexivity|]. repeat split; try reflexivity; cbn; try (intuition discriminate);
    intros p [<-|[]]; cbn; intuition discriminate.
Qed.

Print Assumptions log_filter.
Print Assumptions log_transparent.
Print Assumptions cli_output_readable.
Print Assumptions cli_verbosity.
Print Assumptions log_macro_text.
Print Assumptions log_configured.
