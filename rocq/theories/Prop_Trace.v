(** C79 (the log tells the search) and C80 (logging changes nothing). *)
From Coq Require Import Ascii String.
From Coq Require Import NArith ZArith List Bool Arith Lia Permutation ZifyN ZifyNat ZifyBool.
From Verif Require Import Model_Base Model_Lit Model_PartialAssignment Model_Header Model_Arena Model_Prop
  Model_Heap Model_Vsids Model_Analysis Model_Luby Model_Solver Model_Drat Model_VecMap Model_Cli Model_Log Model_Report Model_Trace
  Spec Proof_Base Proof_PA Proof_Lit Proof_ArenaHist
  Proof_Long Proof_Trail Proof_Backtrack Proof_Inv Proof_Propagate Proof_Gc Proof_Analysis Proof_Learn Proof_DB Proof_Reduce Proof_Solver Proof_Search Proof_Solve Proof_Add
  Drivers_Solver Drivers_Search Proof_Main Proof_Select Proof_Visited Examples_Solver Proof_Size Prop_Prop Prop_Analysis Prop_Search Prop_Step
  Prop_Memory Prop_Solver Prop_Cli Prop_Log Prop_Report.
Import ListNotations.
Local Open Scope list_scope.

(** ** Words *)
(** What a log line says. *)
Inductive note :=
| NHello
| NRestart
| NBacktrack (from to : nat)              (* decision levels *)
| NReduce
| NReport (final : bool) (s : stats)      (* a progress report, at the end of [solve] or after a reduction *)
| NCollect (allocated used : nat)         (* words of the clause arena *)
| NUip (clause : list N)
| NDecision (l : N)
| NAnswer (b : bool)
| NResult (b : bool) (duration : list N)
| NConflicts (n : nat) (per_sec : list N)
| NDecisions (n : nat) (per_conflict : list N)
| NPropagations (n : nat) (per_sec : list N).

(** The log level of each and where it is printed from. *)
Definition note_level (n : note) : log_level :=
  match n with
  | NBacktrack _ _ | NUip _ | NDecision _ => LTrace
  | NRestart | NReduce | NCollect _ _ => LDebug
  | NAnswer _ => LVerbose
  | _ => LInfo
  end.
Definition note_source (n : note) : string * string :=
  match n with
  | NHello => ("starlit-cli/src/main.rs", "61")
  | NRestart => ("starlit/src/search.rs", "112")
  | NBacktrack _ _ => ("starlit/src/prop/trail.rs", "276")
  | NReduce => ("starlit/src/search/reduce.rs", "21")
  | NReport true _ => ("starlit/src/solver.rs", "64")
  | NReport false _ => ("starlit/src/state.rs", "38")
  | NCollect _ _ => ("starlit/src/prop.rs", "158")
  | NUip _ => ("starlit/src/conflict_analysis.rs", "190")
  | NDecision _ => ("starlit/src/search.rs", "76")
  | NAnswer true => ("starlit/src/search.rs", "81")
  | NAnswer false => ("starlit/src/search.rs", "55")
  | NResult _ _ => ("starlit-cli/src/main.rs", "96")
  | NConflicts _ _ => ("starlit-cli/src/main.rs", "97")
  | NDecisions _ _ => ("starlit-cli/src/main.rs", "102")
  | NPropagations _ _ => ("starlit-cli/src/main.rs", "108")
  end%string.
(** Literals as numbers (see C69), separated by commas. *)
Fixpoint commas (c : list N) : list N :=
  match c with
  | [] => []
  | [l] => lit_display l
  | l :: r => lit_display l ++ text ", " ++ commas r
  end.
(** Its text, except for the reports (see C64). *)
Definition note_text (n : note) : list N :=
  match n with
  | NHello => text "c Starlit SAT Solver"
  | NRestart => text "c D: restart"
  | NBacktrack a b => text "c T: backtrack from: " ++ decimal a ++ text " to: " ++ decimal b
  | NReduce => text "c D: reduce"
  | NReport _ _ => []
  | NCollect a u => text "c D: garbage collection Utilization { allocated: " ++ decimal a ++ text ", used: " ++ decimal u ++ text " }"
  | NUip c => text "c T: 1-uip clause: [" ++ commas c ++ text "]"
  | NDecision l => text "c T: decision: " ++ lit_display l
  | NAnswer true => text "c V: satisfiable"
  | NAnswer false => text "c V: unsatisfiable"
  | NResult b d => text "c satisfiable: " ++ text (if b then "true" else "false") ++ text " duration: " ++ d
  | NConflicts n x => text "c conflicts: " ++ decimal n ++ text " per_sec: " ++ x
  | NDecisions n x => text "c decisions: " ++ decimal n ++ text " per_conflict: " ++ x
  | NPropagations n x => text "c propagations: " ++ decimal n ++ text " per_sec: " ++ x
  end.

Section Printed.
Variables (lg : logger) (path : list N -> list N) (dbg : bool).
(** The source location, if the logger adds it. *)
Definition location (n : note) : list N :=
  if lg_source lg then
    text " " ++ 27%N :: text "[34m" ++ path (text (fst (note_source n))) ++ text ":" ++ text (snd (note_source n)) ++ 27%N :: text "[0m"
  else [].
(** [bs] is the line printed for a note: none if its level is not active.  A
    report also shows the time. *)
Definition printed (n : note) (bs : list N) : Prop :=
  match n with
  | NReport _ s => exists time, report_print dbg lg s time (path (text (fst (note_source n)))) (text (snd (note_source n))) = Ret bs
  | _ => bs = if (level_u8 (note_level n) <? lg_limit lg)%N then note_text n ++ location n ++ [10%N] else []
  end.
Inductive all_printed : list note -> list N -> Prop :=
| ap_nil : all_printed [] []
| ap_cons n bs ns r : printed n bs -> all_printed ns r -> all_printed (n :: ns) (bs ++ r).
End Printed.

(** The decisions that are not undone, in the order in which they were made. *)
Definition decision_lits (p : prop) : list N := map s_lit (filter is_decision (t_steps (p_trail p))).
(** The same from the log alone: a decision is added at the end, backtracking
    from the current level to a lower one keeps as many decisions as that level
    says. *)
Fixpoint replay (ds : list N) (ns : list note) : option (list N) :=
  match ns with
  | [] => Some ds
  | NDecision l :: r => replay (ds ++ [l]) r
  | NBacktrack a b :: r => if (a =? List.length ds) && (b <? a) then replay (firstn b ds) r else None
  | _ :: r => replay ds r
  end.
Definition is_decision_note (n : note) : bool := match n with NDecision _ => true | _ => false end.
Definition is_conflict_note (n : note) : bool := match n with NUip _ | NAnswer false => true | _ => false end.
Definition is_restart_note (n : note) : bool := match n with NRestart => true | _ => false end.
Definition is_reduce_note (n : note) : bool := match n with NReduce => true | _ => false end.
Definition is_answer_note (n : note) : bool := match n with NAnswer _ => true | _ => false end.
(** The notes of the solver; the others are those of the program. *)
Definition is_search_note (n : note) : bool :=
  match n with NHello | NResult _ _ | NConflicts _ _ | NDecisions _ _ | NPropagations _ _ => false | _ => true end.
Definition count (f : note -> bool) (ns : list note) : nat := List.length (filter f ns).
Definition reductions (s : solver) : nat := st_reductions (cx_stats (so_ctx s)).
(** The statistics count the notes. *)
Definition counted (cx cx' : ctx) (ns : list note) : Prop :=
  st_decisions (cx_stats cx') = st_decisions (cx_stats cx) + count is_decision_note ns /\
  st_conflicts (cx_stats cx') = st_conflicts (cx_stats cx) + count is_conflict_note ns /\
  st_restarts (cx_stats cx') = st_restarts (cx_stats cx) + count is_restart_note ns /\
  st_reductions (cx_stats cx') = st_reductions (cx_stats cx) + count is_reduce_note ns.

(** What a search step without restart and reduction reports: a garbage
    collection if at most half of the clause arena is used; then propagation
    adds literals [ext], and one of four things happens (see C60). *)
Definition search_notes (F : list (list N)) (p : prop) (r : option bool) (p' : prop) (ns : list note) : Prop :=
  if p_unsat p then ns = [] /\ r = Some false /\ p' = p else
  exists live ext out, lists_long p live /\ (forall a, In a ext -> snd a = level p) /\
    let T := assignments p ++ ext in
    let d := level p in
    let words := List.length (a_buffer (p_long p)) in
    ns = (if 2 * words_needed live <=? words then [NCollect words (words_needed live)] else []) ++ out /\
    p_unsat p' = match r with Some false => true | _ => false end /\
    ((r = Some true /\ out = [NAnswer true] /\ assignments p' = T /\ level p' = d) \/
     (exists l, r = None /\ out = [NDecision l] /\ assignments p' = T ++ [(l, S d)] /\ level p' = S d) \/
     (r = Some false /\ out = [NAnswer false] /\ d = 0 /\ assignments p' = T /\ level p' = 0) \/
     (exists der l k, r = None /\ out = [NUip (der ++ [l]); NBacktrack d k] /\ k < d /\
        assignments p' = upto k T ++ [(l, k)] /\ level p' = k /\
        (* the clause is implied and false; only its last literal is of the current level *)
        (forall v, sat_cnf v F -> sat_clause v (der ++ [l])) /\
        In (neg l, d) T /\ forall x, In x der -> exists j, 1 <= j < d /\ In (neg x, j) T)).

(** ** Lines of text *)
Section Lines.
Variables (lg : logger) (path : list N -> list N) (clock : nat -> N).

Lemma literal_text s : literal s = text s.
Proof. reflexivity. Qed.
Lemma debug_decimal n : debug_nat n = decimal n.
Proof. reflexivity. Qed.
Lemma debug_commas c : debug_lits c = text "[" ++ commas c ++ text "]".
Proof.
  unfold debug_lits. f_equal. f_equal. destruct c as [|l c]; auto. revert l. induction c as [|m c IH]; intro l; [apply app_nil_r|].
  change (commas (l :: m :: c)) with (lit_display l ++ text ", " ++ commas (m :: c)). rewrite <- IH. cbn [debug_tail flat_map]. rewrite <- app_assoc. reflexivity.
Qed.

Lemma emit_bytes dbg out l f li args n : (match n with NReport _ _ => False | _ => True end) ->
  note_level n = l -> note_source n = (f, li) -> log_prefix l ++ flat_map arg_text args = note_text n ->
  exists bs, emit lg path out l f li args = out ++ bs /\ printed lg path dbg n bs.
Proof.
  intros Hn Hl Hs Ht. eexists. split; [reflexivity|].
  assert (E : log_macro lg l (path (literal f)) (literal li) args = if (level_u8 (note_level n) <? lg_limit lg)%N then note_text n ++ location lg path n ++ [10%N] else []).
  { rewrite log_macro_text, Hl. destruct (_ <? _)%N; auto. rewrite app_assoc, Ht. unfold location. rewrite Hs. reflexivity. }
  unfold printed. destruct n; try contradiction; exact E.
Qed.
Lemma all_one dbg n bs : printed lg path dbg n bs -> all_printed lg path dbg [n] bs.
Proof. intro H. rewrite <- (app_nil_r bs). constructor; auto. constructor. Qed.
Lemma all_app dbg ns bs ms cs : all_printed lg path dbg ns bs -> all_printed lg path dbg ms cs -> all_printed lg path dbg (ns ++ ms) (bs ++ cs).
Proof. induction 1; intro G; auto. cbn [app]. rewrite <- app_assoc. constructor; auto. Qed.
End Lines.

Ltac note_line dbg n :=
  let bs := fresh "bs" in let Eb := fresh "Eb" in let Pb := fresh "Pb" in
  match goal with |- context [emit ?lg ?path ?out ?l ?f ?li ?args] =>
    destruct (emit_bytes lg path dbg out l f li args n) as (bs & Eb & Pb);
      [exact I|reflexivity|reflexivity|cbn -[uint_bytes lit_display N.to_uint N.of_nat];
         rewrite ?app_nil_r, <- ?app_assoc; reflexivity|rewrite Eb]
  end.

(** ** One search step *)
Section Step.
Variables (select : selection) (dbg : bool) (F : list (list N)).
Hypothesis Hs : select_ok (fun _ _ => True) select.

Lemma gc_told cx se : visited select dbg F cx se -> let p := se_prop se in let words := length (a_buffer (p_long p)) in
  exists live, lists_long p live /\ forall lg path out, exists bs,
    all_printed lg path dbg (if 2 * words_needed live <=? words then [NCollect words (words_needed live)] else []) bs /\
    collect_garbage_logged lg path dbg p out = let* p' := prop_collect_garbage dbg p in Ret (p', out ++ bs).
Proof.
  intros HV p words. destruct (visited_SI _ _ _ _ _ Hs HV) as (K & L & st & es & HK & H). pose proof (s_pi _ _ _ _ _ _ _ _ H) as HP. fold p in HP.
  destruct (lists_entries _ _ _ HP) as (live & HL & EL). exists live.
  pose proof (AR_used 2 _ _ (pi_lr _ _ _ _ HP)) as U. rewrite <- EL in U. fold words in U.
  assert (G : should_collect_garbage (p_long p) = (2 * words_needed live <=? words)).
  { unfold should_collect_garbage. fold words. unfold utilization in U. fold words in U. destruct (Nat.leb_spec (a_garbage (p_long p)) words); [|discriminate]. inversion U. lia. }
  split; auto. intros lg path out. unfold collect_garbage_logged, prop_collect_garbage. rewrite G. destruct (2 * words_needed live <=? words).
  - destruct (level_u8 LDebug <? lg_limit lg)%N eqn:El.
    + rewrite U. cbn [bind]. note_line dbg (NCollect words (words_needed live)). exists bs. split; [apply all_one; auto|]. reflexivity.
    + exists []. split; [apply all_one|]. { cbn [printed note_level]. rewrite El. reflexivity. }
      rewrite app_nil_r. reflexivity.
  - exists []. split; [constructor|]. cbn [bind]. rewrite app_nil_r. reflexivity.
Qed.

Lemma backtrack_level p k cb p' cb' : backtrack_to_level dbg p k cb = Ret (p', cb') -> k < decision_level (p_trail p) /\ decision_level (p_trail p') = k.
Proof.
  unfold backtrack_to_level. destruct (Nat.ltb_spec k (decision_level (p_trail p))) as [G|G]; [|discriminate].
  destruct (vget _ _); try discriminate. cbn [bind]. destruct (_ <=? _); [|discriminate]. destruct (foldM _ _ _) as [[[cb1 v1] t1]| |]; try discriminate. cbn [bind].
  intro E. inversion E. split; auto. unfold decision_level in *. cbn [p_set_vt p_trail t_decisions]. rewrite firstn_length. lia.
Qed.
Lemma assign_steps p s p' : assign dbg p s = Ret p' -> t_steps (p_trail p') = t_steps (p_trail p) ++ [s] /\ t_decisions (p_trail p') = t_decisions (p_trail p) /\ p_unsat p' = p_unsat p.
Proof.
  unfold assign, assign_raw, dassert. intro E.
  repeat match type of E with
  | bind (bind ?x _) _ = _ => destruct x; cbn [bind] in E; try discriminate
  | bind (if ?b then _ else _) _ = _ => destruct b; cbn [bind] in E; try discriminate
  end. all: inversion E; auto.
Qed.
Lemma learn_assigns cx an p l kept cx' an' p' : an_derived an = l :: kept -> learn_and_assign dbg cx an p = Ret (cx', an', p') ->
  decision_level (p_trail p') = decision_level (p_trail p) /\
  (p_unsat p' = true \/ exists k r, t_steps (p_trail p') = t_steps (p_trail p) ++ [mkStep l k r]).
Proof.
  intros Ed E. unfold learn_and_assign in E. rewrite Ed in E. cbn [tl vget nth_error] in E.
  match type of E with bind ?x _ = _ => destruct x; cbn [bind] in E; try discriminate end.
  match type of E with bind ?x _ = _ => destruct x as [[h an1]| |]; cbn [bind] in E; try discriminate end.
  destruct (add_clause_verbatim _ _ _ _ _) as [[[ad cx2] p1]| |] eqn:EA; cbn [bind] in E; try discriminate.
  unfold add_clause_verbatim in EA. destruct kept as [|b kept].
  - destruct (pa_is_false _ _) as [f| |]; cbn [bind] in EA; try discriminate. destruct f.
    + inversion EA; subst ad cx2 p1. inversion E; subst. split; [reflexivity|left; reflexivity].
    + destruct (assign _ _ _) as [p2| |] eqn:E2; cbn [bind] in EA; try discriminate. inversion EA; subst ad cx2 p1. inversion E; subst.
      destruct (assign_steps _ _ _ E2) as (A & B & _). split; [unfold decision_level; rewrite B; auto|]. right. eauto.
  - assert (G : p_trail p1 = p_trail p /\ (exists r, (match ad with AEmpty => None | AUnit _ => None | ABinary _ b => Some (RBinary b) | ALong c => Some (RLong c) end) = Some r)).
    { destruct kept as [|b2 kept].
      - destruct (bin_add _ _ _); cbn [bind] in EA; try discriminate. inversion EA; subst. split; [reflexivity|eauto].
      - destruct (long_add_clause _ _ _) as [[[c|] a2]| |]; cbn [bind] in EA; try discriminate.
        destruct (watch_clause _ _ _ _); cbn [bind] in EA; try discriminate. inversion EA; subst. split; [reflexivity|eauto]. }
    destruct G as (G1 & r & G2). rewrite G2 in E.
    destruct (assign _ _ _) as [p2| |] eqn:E2; cbn [bind] in E; try discriminate. inversion E; subst.
    destruct (assign_steps _ _ _ E2) as (A & B & _). rewrite G1 in *. split; [unfold decision_level; rewrite B; auto|]. right. eauto.
Qed.

Lemma analyze_told cx se cx1 p1 c cx0 : visited select dbg F cx se ->
  propagate dbg cx (se_prop se) = Ret (cx1, p1, Some c) -> decision_level (p_trail p1) <> 0 ->
  exists der l, true_at p1 (neg l) (decision_level (p_trail p1)) /\
    (forall x, In x der -> exists k, 1 <= k < decision_level (p_trail p1) /\ true_at p1 (neg x) k) /\
    (forall v, sat_cnf v F -> sat_clause v (der ++ [l])) /\
    match analyze_conflict dbg cx0 (se_analysis se) p1 c (search_cb se) with
    | Ret (cx2, an, p', cb) => exists k,
        (forall lg path out, exists bs,
          analyze_conflict_logged lg path dbg cx0 (se_analysis se) p1 c (search_cb se) out = Ret (cx2, an, p', cb, out ++ bs) /\
          all_printed lg path dbg [NUip (der ++ [l]); NBacktrack (decision_level (p_trail p1)) k] bs) /\ decision_level (p_trail p') = k /\
        (p_unsat p' = true \/ exists ss k r, t_steps (p_trail p') = ss ++ [mkStep l k r])
    | Panic e => forall lg path out, analyze_conflict_logged lg path dbg cx0 (se_analysis se) p1 c (search_cb se) out = Panic e
    | OutOfFuel => forall lg path out, analyze_conflict_logged lg path dbg cx0 (se_analysis se) p1 c (search_cb se) out = OutOfFuel
    end.
Proof.
  intros HV E Hd. destruct (first_uip_clause _ _ _ _ _ _ _ _ Hs HV E Hd) as (p2 & an2 & cb2 & der & l & cl & ED & Eder & ND & Hl & Hder & Ecl & Hfo).
  exists der, l. split; auto. split; auto. split.
  { intros v Hv.
    assert (V1 : visited select dbg F cx1 (with_prop se p1)) by (eapply vis_propagate; eauto).
    assert (HC : sat_clause v cl).
    { destruct (conflict_state _ _ _ _ _ _ _ _ Hs HV E) as (es & HP & _ & _ & Hc). destruct (conf_stored _ _ _ _ Hc) as (cl' & Ecl' & St). rewrite Ecl in Ecl'. inversion Ecl'; subst cl'.
      eapply (holds_implied _ _ _ _ _ _ Hs V1); auto. cbn [with_prop se_prop]. apply (holds_stored _ _ _ HP). exact St. }
    destruct (existsb (fun x => Bool.eqb (v (x / 2)%N) (N.odd x)) (der ++ [l])) eqn:Ex.
    - apply existsb_exists in Ex as (x & Hx & Sx). exists x. split; auto. apply Bool.eqb_prop; auto.
    - exfalso. assert (N : forall x, In x (der ++ [l]) -> sat_lit v (neg x)).
      { intros x Hx. apply sat_neg. intro S1. rewrite <- not_true_iff_false in Ex. apply Ex. apply existsb_exists. exists x. split; auto. rewrite S1. apply Bool.eqb_reflx. }
      assert (G : forall y, follows p1 (map neg (der ++ [l])) y -> sat_lit v y).
      { induction 1 as [y Hy|s rest Hi R _ IH].
        - apply in_map_iff in Hy as (x & <- & Hx). auto.
        - assert (C : sat_clause v (s_lit s :: rest)).
          { unfold reason_rest in R. destruct (s_reason s) as [| |b|r] eqn:Er; try contradiction.
            - subst rest. destruct (trail_units _ _ _ _ _ s Hs V1 Hi Er) as (_ & st & L & D & Hi').
              apply in_app_or in Hi' as [Hi'|Hi']; [eapply drat_sound; eauto|auto].
            - destruct R as [-> R]. eapply (holds_implied _ _ _ _ _ _ Hs V1); eauto.
            - eapply (holds_implied _ _ _ _ _ _ Hs V1); eauto. left. exists r. split; [exact R|discriminate]. }
          destruct C as (y & [<-|Hy] & Sy); auto. exfalso. apply (proj1 (sat_neg v y)); auto. }
      destruct HC as (x & Hx & Sx). apply (proj1 (sat_neg v x)); auto. }
  assert (Et : p_trail p2 = p_trail p1).
  { destruct (conflict_state _ _ _ _ _ _ _ _ Hs HV E) as (es & HP & HA & HC & Hc).
    destruct (derive_ok _ es p1 (se_analysis se) c (search_cb se) HP ltac:(lia) HA HC Hc) as (cl2 & p3 & es2 & an4 & cb3 & der' & u & E2 & _ & HS & _).
    rewrite ED in E2. inversion E2; subst. apply (PS_trail _ _ _ _ _ HS). }
  unfold analyze_conflict, analyze_conflict_logged. destruct (negb _); [|reflexivity]. rewrite ED. cbn [bind].
  destruct (minimize_derived_clause an2 p2) as [[k an3]| |] eqn:EM; cbn [bind]; try reflexivity.
  destruct (minimize_sound _ _ _ _ _ _ _ _ _ _ _ _ _ _ _ Hs HV E Hd ED Eder EM) as (kept & removed & E3 & _).
  unfold backtrack_logged. destruct (backtrack_to_level _ _ _ _) as [[p3 cb3]| |] eqn:EB; cbn [bind]; try reflexivity.
  destruct (backtrack_level _ _ _ _ _ EB) as [_ L3].
  destruct (learn_and_assign _ _ _ _) as [[[cx4 an4] p4]| |] eqn:EL; cbn [bind]; try reflexivity.
  destruct (learn_assigns _ _ _ _ _ _ _ _ E3 EL) as [L4 A4].
  exists k. split.
  { intros lg path out. rewrite Eder, debug_commas, Et.
    note_line dbg (NUip (der ++ [l])). note_line dbg (NBacktrack (decision_level (p_trail p1)) k).
    exists (bs ++ bs0). split; [rewrite <- app_assoc; reflexivity|]. constructor; auto; apply all_one; auto. }
  split; [congruence|].
  destruct A4 as [A4|(k' & r & A4)]; eauto.
Qed.

Lemma count_app f a b : count f (a ++ b) = count f a + count f b.
Proof. unfold count. rewrite filter_app, app_length. reflexivity. Qed.
Lemma counted_app cx1 cx2 cx3 a b : counted cx1 cx2 a -> counted cx2 cx3 b -> counted cx1 cx3 (a ++ b).
Proof. unfold counted. rewrite !count_app. lia. Qed.

Lemma search_told cx se : visited select dbg F cx se ->
  match search_step dbg cx se with
  | Ret (r, cx', se') => exists ns,
      (forall lg path out, exists bs, search_step_logged lg path dbg cx se out = Ret (r, cx', se', out ++ bs) /\ all_printed lg path dbg ns bs) /\
      search_notes F (se_prop se) r (se_prop se') ns /\ counted cx cx' ns
  | Panic e => forall lg path out, search_step_logged lg path dbg cx se out = Panic e
  | OutOfFuel => forall lg path out, search_step_logged lg path dbg cx se out = OutOfFuel
  end.
Proof.
  intro HV. unfold search_step, search_notes. destruct (p_unsat (se_prop se)) eqn:Eu.
  { exists []. split; [intros lg path out; exists []; unfold search_step_logged; rewrite Eu, app_nil_r; split; auto; constructor|]. split; auto. unfold counted, count. cbn. lia. }
  destruct (gc_told _ _ HV) as (live & HL & HG). set (gc := if _ <=? _ then _ else _) in HG. pose proof Eu as Eu'.
  assert (Zgc : forall f, (forall a u, f (NCollect a u) = false) -> count f gc = 0).
  { intros f Hf. unfold gc, count. destruct (_ <=? _); cbn [filter]; [rewrite Hf|]; reflexivity. }
  destruct (prop_collect_garbage dbg (se_prop se)) as [p0| |] eqn:E0; cbn [bind]; try (intros lg path out; unfold search_step_logged; rewrite Eu'; destruct (HG lg path out) as (gbs & _ & ->); reflexivity).
  pose proof (vis_collect _ _ _ _ _ _ HV E0) as H0.
  assert (A0 : assignments p0 = assignments (se_prop se) /\ level p0 = level (se_prop se) /\ p_unsat p0 = p_unsat (se_prop se)).
  { destruct (visited_SI _ _ _ _ _ Hs HV) as (K & L & st & es & HK & H).
    destruct (SI_gc dbg _ _ _ _ _ _ _ _ H) as [[E' _]|(p0' & es0 & f & E' & _ & Es0 & Ed0 & _ & Eu0 & _)]; rewrite E0 in E'; [discriminate|]. inversion E'; subst p0'.
    unfold assignments, level, decision_level. rewrite Es0, Ed0, map_map. split; auto. apply map_ext. intro s. rewrite gc_step_lit, gc_step_level. reflexivity. }
  destruct A0 as (A0 & L0 & U0). rewrite <- A0, <- L0. rewrite <- U0 in Eu.
  destruct (propagate dbg cx p0) as [[[cx1 p1] r1]| |] eqn:E1; cbn [bind]; try (intros lg path out; unfold search_step_logged; rewrite Eu'; destruct (HG lg path out) as (gbs & _ & ->); cbn [bind]; rewrite E1; reflexivity).
  assert (P : exists ext, (forall a, In a ext -> snd a = level p0) /\ assignments p1 = assignments p0 ++ ext /\ level p1 = level p0 /\
     st_decisions (cx_stats cx1) = st_decisions (cx_stats cx) /\ st_conflicts (cx_stats cx1) = st_conflicts (cx_stats cx) /\
     st_restarts (cx_stats cx1) = st_restarts (cx_stats cx) /\ st_reductions (cx_stats cx1) = st_reductions (cx_stats cx) /\ p_unsat p1 = false).
  { destruct (visited_SI _ _ _ _ _ Hs H0) as (K & L & st & es & HK & H). cbn [with_prop se_prop] in *.
    destruct (SI_propagate dbg _ _ _ _ _ _ _ _ H) as (cx1' & p1' & es1 & r' & E' & H1 & ((ext & Ex & Hx) & Ed & Eu1 & _) & _ & HR). cbn [with_prop se_prop] in *.
    rewrite E1 in E'. inversion E'; subst cx1' p1' r'. exists (map (fun s => (s_lit s, s_level s)) ext).
    assert (El : level p1 = level p0) by (unfold level, decision_level; rewrite Ed; reflexivity).
    split; [|split; [unfold assignments; rewrite Ex, map_app; reflexivity|split; [exact El|]]].
    - intros a Ha. apply in_map_iff in Ha as (s & <- & Hi). cbn [snd]. apply In_nth_error in Hi as [i Hi].
      pose proof (pi_tr _ _ _ _ (s_pi _ _ _ _ _ _ _ _ H1)) as HT1. cbn [se_prop] in HT1.
      pose proof (pi_tr _ _ _ _ (s_pi _ _ _ _ _ _ _ _ H)) as HT0. cbn [with_prop se_prop] in HT0.
      assert (Ei : nth_error (t_steps (p_trail p1)) (length (t_steps (p_trail p0)) + i) = Some s).
      { rewrite Ex, nth_error_app2 by lia. rewrite <- Hi. f_equal. lia. }
      rewrite (tr_lev _ _ HT1 _ _ Ei), Ed. unfold level. rewrite (tr_dl (cnf_vars F) (p_trail p0)) by exact HT0. unfold lvl. rewrite filter_all; auto.
      intros d Hd. apply (tr_ds _ _ HT0) in Hd. apply Nat.leb_le. lia.
    - rewrite Eu1, Eu. destruct r1 as [c|]; destruct HR as [HR1 HR2]; rewrite HR2; auto 10. }
  destruct P as (ext & Hext & Ea & El & D1 & C1 & R1 & Q1 & Up1).
  destruct r1 as [c|].
  - destruct (Nat.eqb_spec (decision_level (p_trail p1)) 0) as [Z|Z].
    + exists (gc ++ [NAnswer false]). split.
      { intros lg path out. unfold search_step_logged; rewrite Eu'; destruct (HG lg path out) as (gbs & HGp & ->); cbn [bind]; rewrite E1; cbn [bind]. rewrite (proj2 (Nat.eqb_eq _ _) Z). note_line dbg (NAnswer false). exists (gbs ++ bs). split; [rewrite app_assoc; reflexivity|]. apply all_app; auto; apply all_one; auto. }
      split.
      * exists live, ext, [NAnswer false]. split; auto. split; auto. cbv zeta. split; auto. split; [reflexivity|]. right; right; left. unfold level in *. repeat split; auto; cbn [se_prop p_set_unsat p_trail]; lia.
      * unfold counted. rewrite !count_app, !Zgc by reflexivity. cbn. lia.
    + destruct (analyze_told cx (with_prop se p0) cx1 p1 c (bump_conflicts cx1) H0 E1 Z) as (der & l & Hl & Hder & Himp & HA).
      cbn [with_prop se_analysis se_vsids se_phases] in HA. change (search_cb (with_prop se p0)) with (mkCb (se_vsids se) (se_phases se)) in HA.
      destruct (analyze_conflict _ _ _ _ _ _) as [[[[cx3 an] p2] cb]| |] eqn:E2; cbn [bind]; [|intros lg path out; unfold search_step_logged; rewrite Eu'; destruct (HG lg path out) as (gbs & HGp & ->); cbn [bind]; rewrite E1; cbn [bind]; rewrite (proj2 (Nat.eqb_neq _ _) Z), HA; reflexivity..].
      destruct HA as (k & HB & Lk & Hlast). cbn [bind].
      pose proof (fun H => learned_asserting select dbg F cx (with_prop se p0) cx1 p1 c cx3 an p2 cb Hs H0 E1 Z H) as LA.
      destruct (LA E2) as (a & rest & k' & rr & _ & _ & _ & _ & Hk & Hl' & Ht & Ha & _). clear LA. rewrite Lk in Hl'. subst k'.
      assert (SC : st_decisions (cx_stats cx3) = st_decisions (cx_stats (bump_conflicts cx1)) /\
        st_conflicts (cx_stats cx3) = st_conflicts (cx_stats (bump_conflicts cx1)) /\ st_restarts (cx_stats cx3) = st_restarts (cx_stats (bump_conflicts cx1)) /\
        st_reductions (cx_stats cx3) = st_reductions (cx_stats (bump_conflicts cx1)) /\ p_unsat p2 = false).
      { clear - Hs H0 E1 E2 Z Eu. destruct (visited_SI _ _ _ _ _ Hs H0) as (K & L & st & es & HK & H).
        destruct (SI_propagate dbg _ _ _ _ _ _ _ _ H) as (cx1' & p1' & es1 & r' & E' & H1 & (_ & _ & Eu1 & _) & _ & HR). cbn [with_prop se_prop se_analysis se_vsids se_phases] in *.
        rewrite E1 in E'. inversion E'; subst cx1' p1' r'. destruct HR as [Hc ->].
        set (se1 := mkSearch p1 (se_analysis se) (se_vsids se) (se_phases se)) in *.
        assert (H2 : SI K (cnf_vars F) F L st es1 (bump_conflicts cx) se1). { eapply SI_ctx; [exact H1|..]; try reflexivity. apply H1. }
        destruct (SI_analyze dbg _ _ _ _ _ _ _ se1 c H2 Hc) as [[E3 HF]|R]; [cbn [se_prop se1]; lia|cbn [se_analysis se_prop se_vsids se_phases se1] in E3; congruence|].
        destruct R as (cx4 & an' & p' & cb' & es' & cl & level & target & r & a & E3 & _ & _ & _ & _ & Eu2 & (h & Ecx) & _).
        cbn [se_analysis se_prop se_vsids se_phases se1] in E3, Eu2. rewrite E3 in E2. assert (Q : cx3 = cx4) by congruence. assert (Q' : p2 = p') by congruence.
        rewrite Q, Q', Ecx, Eu2, Eu1, Eu. cbn [cx_stats].
        rewrite st_add_conflicts, st_add_restarts. split; [unfold st_add; destruct cl as [|? [|? [|]]]; auto; destruct (lh_redundant h); auto|]. split; auto. split; auto. split; auto.
        unfold st_add; destruct cl as [|? [|? [|]]]; auto; destruct (lh_redundant h); auto. }
      destruct SC as (S1 & S2 & S3 & S4 & S5). destruct Hlast as [Hlast|(ss & k2 & r2 & Hlast)]; [congruence|].
      rewrite Ht in Hlast. apply app_inj_tail in Hlast as [_ Hlast]. inversion Hlast; subst a k2 r2. clear Hlast.
      exists (gc ++ [NUip (der ++ [l]); NBacktrack (decision_level (p_trail p1)) k]). split.
      { intros lg path out. unfold search_step_logged; rewrite Eu'; destruct (HG lg path out) as (gbs & HGp & ->); cbn [bind]; rewrite E1; cbn [bind]. rewrite (proj2 (Nat.eqb_neq _ _) Z). destruct (HB lg path (out ++ gbs)) as (bs & -> & HB'). cbn [bind]. exists (gbs ++ bs). split; [rewrite app_assoc; reflexivity|]. apply all_app; auto. }
      assert (Hin : forall x j, true_at p1 x j -> In (x, j) (assignments p0 ++ ext)).
      { intros x j (s & Hi & <- & <-). rewrite <- Ea. unfold assignments. apply in_map_iff. exists s; auto. }
      split.
      * exists live, ext, [NUip (der ++ [l]); NBacktrack (decision_level (p_trail p1)) k]. split; auto. split; auto. cbv zeta. split; auto. split; [exact S5|]. right; right; right.
        unfold level in El. rewrite El in *. unfold level in *. exists der, l, k. split; auto. split; auto. split; auto. split.
        { rewrite <- Ea. unfold assignments. cbn [se_prop]. rewrite Ht, map_app. cbn [map s_lit s_level]. f_equal. clear.
          unfold upto. induction (t_steps (p_trail p1)) as [|s ss IH]; auto. cbn [filter map snd]. destruct (s_level s <=? k); cbn [map]; rewrite IH; reflexivity. }
        split; auto. split; auto. split; auto. intros x Hx. destruct (Hder x Hx) as (j & Hj & Hx'). eauto.
      * unfold counted. rewrite !count_app, !Zgc by reflexivity. cbn in *. lia.
  - destruct (pop_decision_var _ _) as [[ov vs]| |] eqn:E2; cbn [bind]; try (intros lg path out; unfold search_step_logged; rewrite Eu'; destruct (HG lg path out) as (gbs & HGp & ->); cbn [bind]; rewrite E1; cbn [bind]; rewrite E2; reflexivity). destruct ov as [v|].
    + destruct (decide_phase _ _) as [l| |] eqn:E3; cbn [bind]; try (intros lg path out; unfold search_step_logged; rewrite Eu'; destruct (HG lg path out) as (gbs & HGp & ->); cbn [bind]; rewrite E1; cbn [bind]; rewrite E2; cbn [bind]; rewrite E3; reflexivity).
      destruct (assign_decision _ _ _) as [p2| |] eqn:E4; cbn [bind]; try (intros lg path out; unfold search_step_logged; rewrite Eu'; destruct (HG lg path out) as (gbs & HGp & ->); cbn [bind]; rewrite E1; cbn [bind]; rewrite E2; cbn [bind]; rewrite E3; cbn [bind]; rewrite E4; reflexivity).
      exists (gc ++ [NDecision l]). split.
      { intros lg path out. unfold search_step_logged; rewrite Eu'; destruct (HG lg path out) as (gbs & HGp & ->); cbn [bind]; rewrite E1; cbn [bind]. rewrite E2. cbn [bind]. rewrite E3. cbn [bind]. rewrite E4. cbn [bind]. note_line dbg (NDecision l). exists (gbs ++ bs). split; [rewrite app_assoc; reflexivity|]. apply all_app; auto; apply all_one; auto. }
      split; [|unfold counted; rewrite !count_app, !Zgc by reflexivity; cbn; lia].
      exists live, ext, [NDecision l]. split; auto. split; auto. cbv zeta. split; auto. split; [cbn [se_prop]; unfold assign_decision in E4; rewrite (proj2 (proj2 (assign_steps _ _ _ E4))); exact Up1|]. right; left. exists l. split; auto. split; auto. cbn [se_prop].
      assert (HN : t_decisions (p_trail p1) <> []).
      { pose proof (vis_propagate _ _ _ _ _ _ _ _ H0 E1) as HV1. destruct (visited_SI _ _ _ _ _ Hs HV1) as (K & L & st & es & HK & H).
        pose proof (tr_hd _ _ (pi_tr _ _ _ _ (s_pi _ _ _ _ _ _ _ _ H))) as G. cbn [with_prop se_prop] in G. rewrite G. discriminate. }
      unfold assign_decision in E4. destruct (assign_steps _ _ _ E4) as (G1 & G2 & _). cbn [p_set_trail p_trail t_steps t_decisions] in G1, G2.
      unfold level in *. unfold decision_level in *. rewrite G2 in *. cbn [t_decisions] in G1. rewrite app_length in *. cbn [length] in *. destruct (t_decisions (p_trail p1)) as [|d0 ds]; [contradiction|]. cbn [length] in *.
      split; [|lia]. unfold assignments in *. rewrite G1, map_app, Ea. cbn [map s_lit s_level]. f_equal. f_equal. f_equal. lia.
    + exists (gc ++ [NAnswer true]). split.
      { intros lg path out. unfold search_step_logged; rewrite Eu'; destruct (HG lg path out) as (gbs & HGp & ->); cbn [bind]; rewrite E1; cbn [bind]. rewrite E2. cbn [bind]. note_line dbg (NAnswer true). exists (gbs ++ bs). split; [rewrite app_assoc; reflexivity|]. apply all_app; auto; apply all_one; auto. }
      split; [|unfold counted; rewrite !count_app, !Zgc by reflexivity; cbn; lia].
      exists live, ext, [NAnswer true]. split; auto. split; auto. cbv zeta. split; [auto|]. split; [exact Up1|]. left. cbn [se_prop]. auto.
Qed.

(** ** A scheduled step *)
Lemma report_told cx se (final : bool) : visited select dbg F cx se ->
  report dbg cx = Ret tt /\
  forall lg path clock out, exists bs, report_logged lg path clock dbg cx (if final then "starlit/src/solver.rs" else "starlit/src/state.rs")%string (if final then "64" else "38")%string out = Ret (out ++ bs) /\
    printed lg path dbg (NReport final (cx_stats cx)) bs.
Proof.
  intro HV. assert (Vn : (N.of_nat (st_vars (cx_stats cx)) <= 1073741824)%N).
  { destruct (visited_SI _ _ _ _ _ Hs HV) as (K & L & st & es & HK & H). rewrite (sti_vars _ _ _ _ _ (s_st _ _ _ _ _ _ _ _ H)).
    apply (pi_n _ _ _ _ (s_pi _ _ _ _ _ _ _ _ H)). }
  assert (B : dbg = true -> st_fixed_vars (cx_stats cx) <= st_vars (cx_stats cx)).
  { intro D. eapply fixed_vars_bound_partial; eauto. }
  split. { unfold report. destruct dbg; auto. rewrite (proj2 (Nat.leb_le _ _)); auto. }
  intros lg path clock out. unfold report_logged. set (t := clock _).
  assert (G : exists bs, report_print dbg lg (cx_stats cx) t (path (literal (if final then "starlit/src/solver.rs" else "starlit/src/state.rs")%string)) (literal (if final then "64" else "38")%string) = Ret bs).
  { unfold report_print. destruct (_ <? _)%N; [|eauto]. unfold report_pieces, usize_sub, usize_mul. destruct (_ <=? _)%N eqn:El; cbn [bind].
    - destruct (N.ltb_spec ((N.of_nat (st_vars (cx_stats cx)) - N.of_nat (st_fixed_vars (cx_stats cx))) * 100) 18446744073709551616) as [|G]; [|lia]. cbn [bind]. eauto.
    - destruct dbg eqn:D; [specialize (B eq_refl); lia|]. cbn [bind]. destruct (_ <? _)%N; cbn [bind]; eauto. }
  destruct G as [bs G]. exists bs. rewrite G. cbn [bind]. split; auto. cbn [printed]. exists t. destruct final; exact G.
Qed.

Lemma restart_told (b : bool) cx0 se0 : visited select dbg F cx0 se0 ->
  exists se1, (if b then restart dbg cx0 se0 else Ret (cx0, se0)) = Ret (if b then bump_restarts cx0 else cx0, se1) /\
    (forall lg path out, exists bs1, (if b then restart_logged lg path dbg cx0 se0 out else Ret (cx0, se0, out)) = Ret (if b then bump_restarts cx0 else cx0, se1, out ++ bs1) /\
    all_printed lg path dbg (if b then NRestart :: (if 0 <? level (se_prop se0) then [NBacktrack (level (se_prop se0)) 0] else []) else []) bs1) /\
    visited select dbg F (if b then bump_restarts cx0 else cx0) se1 /\
    assignments (se_prop se1) = (if b then upto 0 (assignments (se_prop se0)) else assignments (se_prop se0)) /\ level (se_prop se1) = (if b then 0 else level (se_prop se0)) /\
    p_unsat (se_prop se1) = p_unsat (se_prop se0) /\ p_long (se_prop se1) = p_long (se_prop se0).
Proof.
  intro HV. destruct b.
    - destruct (restart_effect select dbg F _ _ Hs HV) as (se' & E1 & A1 & A2 & A4 & _ & _ & A3). exists se'.
      assert (V1 : visited select dbg F (bump_restarts cx0) se') by (eapply vis_restart; eauto).
      assert (G : forall lg path out, exists bs1, restart_logged lg path dbg cx0 se0 out = Ret (bump_restarts cx0, se', out ++ bs1) /\
        all_printed lg path dbg (NRestart :: (if 0 <? level (se_prop se0) then [NBacktrack (level (se_prop se0)) 0] else [])) bs1).
      { intros lg path out. unfold restart in E1. unfold restart_logged. unfold level.
        destruct (0 <? decision_level (p_trail (se_prop se0))).
        - unfold backtrack_logged. destruct (backtrack_to_level _ _ _ _) as [[p' cb]| |]; cbn [bind] in *; try discriminate. inversion E1; subst se'.
          note_line dbg NRestart. note_line dbg (NBacktrack (decision_level (p_trail (se_prop se0))) 0). exists (bs ++ bs0). split; [rewrite app_assoc; reflexivity|].
          constructor; auto. apply all_one; auto.
        - inversion E1; subst se'. note_line dbg NRestart. exists bs. split; auto. apply all_one; auto. }
      auto 10.
    - exists se0. split; auto. split; [intros lg path out; exists []; rewrite app_nil_r; split; [auto|constructor]|]. auto 10.
Qed.
Lemma reduce_told (b2 : bool) cx1 se1 : visited select dbg F cx1 se1 ->
  exists cx2 se2, (if b2 then (let* (cx2, se2) := reduce select cx1 se1 in let* _ := report dbg cx2 in Ret (cx2, se2)) else Ret (cx1, se1)) = Ret (cx2, se2) /\
    (forall lg path clock out, exists bs2, (if b2 then (let* (cx2, se2, out') := reduce_logged lg path select cx1 se1 out in
      let* out'' := report_logged lg path clock dbg cx2 "starlit/src/state.rs" "38" out' in Ret (cx2, se2, out'')) else Ret (cx1, se1, out)) = Ret (cx2, se2, out ++ bs2) /\
    all_printed lg path dbg (if b2 then [NReduce; NReport false (cx_stats cx2)] else []) bs2) /\
    visited select dbg F cx2 se2 /\ p_trail (se_prop se2) = p_trail (se_prop se1) /\ p_unsat (se_prop se2) = p_unsat (se_prop se1) /\
    (b2 = false -> p_long (se_prop se2) = p_long (se_prop se1)) /\ length (a_buffer (p_long (se_prop se2))) = length (a_buffer (p_long (se_prop se1))) /\
    cx_stats cx2 = (let s := cx_stats cx1 in mkStats (st_propagations s) (st_fixed_vars s) (st_binary s) (st_irredundant s) (st_redundant (cx_stats cx2)) (st_vars s)
      (st_decisions s) (st_conflicts s) (st_restarts s) (st_reductions s + if b2 then 1 else 0)) /\ st_redundant (cx_stats cx2) <= st_redundant (cx_stats cx1).
Proof.
  intro V1. destruct b2.
    - destruct (visited_SI _ _ _ _ _ Hs V1) as (K & L & stp & es & HK & H).
      destruct (SI_reduce select _ _ _ _ _ _ _ _ _ Hs H) as (cx' & se' & L' & es' & lls & E4 & _ & Ecx & Eu & Et & _ & _ & a' & D & Ea & RD).
      exists cx', se'. unfold reduce_logged. rewrite E4. cbn [bind].
      assert (V2 : visited select dbg F cx' se') by (eapply vis_reduce; eauto).
      destruct (report_told cx' se' false V2) as (Er & Er'). rewrite Er. cbn [bind]. split; auto. split.
      { intros lg path clock out. note_line dbg NReduce. destruct (Er' lg path clock (out ++ bs)) as (bs2 & Er2 & Pr). cbn [bind]. rewrite Er2. cbn [bind].
        exists (bs ++ bs2). split; [rewrite !app_assoc; reflexivity|]. constructor; auto; apply all_one; auto. }
      split; auto. split; auto. split; auto. split; [discriminate|].
      split.
      + apply (reduce_size _ _ _ _ _ E4).
      + rewrite Ecx. unfold del_ctx, del_stats, bump_reductions, cx_with. cbn. split; [reflexivity|lia].
    - exists cx1, se1. split; auto. split; [intros lg path clock out; exists []; rewrite app_nil_r; split; [auto|constructor]|]. split; auto. split; auto. split; auto. split; auto. split; auto. split; auto.
      destruct (cx_stats cx1). cbn. rewrite Nat.add_0_r. reflexivity.
Qed.

(** A step: what it returns and what it reports.  [mid] is the state after the
    restart and the reduction, if there are any; [rest] is reported then. *)
Theorem step_told s r cx st : reach select dbg F s ->
  schedule_search_step select dbg (so_ctx s) (so_state s) = Ret (r, cx, st) ->
  let s' := mkSolver cx st in
  exists mid cxm rest,
    (forall lg path clock out, exists msg,
      schedule_search_step_logged lg path clock select dbg (so_ctx s) (so_state s) out = Ret (r, cx, st, out ++ msg) /\
      all_printed lg path dbg
        ((if restarts s <? restarts s' then
            NRestart :: (if 0 <? level (so_prop s) then [NBacktrack (level (so_prop s)) 0] else []) else []) ++
         (if reductions s <? reductions s' then [NReduce; NReport false (cx_stats cxm)] else []) ++ rest) msg) /\
    restarts s <= restarts s' <= S (restarts s) /\ reductions s <= reductions s' <= S (reductions s) /\
    (* the state in between *)
    assignments mid = (if restarts s <? restarts s' then upto 0 (assignments (so_prop s)) else assignments (so_prop s)) /\
    level mid = (if restarts s <? restarts s' then 0 else level (so_prop s)) /\
    (reductions s' = reductions s -> p_long mid = p_long (so_prop s)) /\ length (a_buffer (p_long mid)) = arena_words s /\ p_unsat mid = p_unsat (so_prop s) /\
    cx_stats cxm = mkStats (st_propagations (cx_stats (so_ctx s))) (st_fixed_vars (cx_stats (so_ctx s))) (st_binary (cx_stats (so_ctx s)))
      (st_irredundant (cx_stats (so_ctx s))) (st_redundant (cx_stats cxm)) (st_vars (cx_stats (so_ctx s)))
      (decisions s) (conflicts s) (restarts s') (reductions s') /\ st_redundant (cx_stats cxm) <= st_redundant (cx_stats (so_ctx s)) /\
    (* the search *)
    search_notes F mid r (so_prop s') rest /\ counted cxm cx rest.
Proof.
  intros HR E. pose proof (vis_solver _ _ _ _ HR) as HV. unfold schedule_search_step in E. unfold schedule_search_step_logged.
  destruct (should_restart _ _) as [b sc1]. set (se0 := sta_search (so_state s)) in *.
  pose proof (restart_told b (so_ctx s) se0 HV) as A. change (se_prop se0) with (so_prop s) in A.
  destruct A as (se1 & E1 & E1' & V1 & A1 & L1 & U1 & G1). rewrite E1 in E. cbn [bind] in E. clear E1. set (cx1 := if b then bump_restarts _ else _) in *.
  destruct (should_reduce cx1 sc1) as [b2 sc2] eqn:Esr.
  pose proof (reduce_told b2 cx1 se1 V1) as A.
  destruct A as (cx2 & se2 & E2 & E2' & V2 & T2 & U2 & G2 & W2 & S2 & M2). rewrite E2 in E. cbn [bind] in E. clear E2.
  pose proof (search_told cx2 se2 V2) as HT.
  destruct (search_step dbg cx2 se2) as [[[r3 cx3] se3]| |] eqn:E3; try discriminate. cbn [bind] in E. inversion E; subst r3 cx st. clear E.
  destruct HT as (ns & E3' & N3 & C3). cbv zeta. exists (se_prop se2), cx2, ns.
  assert (Zn : count is_restart_note ns = 0 /\ count is_reduce_note ns = 0).
  { unfold search_notes in N3. destruct (p_unsat (se_prop se2)); [destruct N3 as [-> _]; auto|].
    destruct N3 as (live & ext & o & _ & _ & -> & _ & O). rewrite !count_app. destruct (_ <=? _); cbn [count filter is_restart_note is_reduce_note length plus];
      destruct O as [(_ & -> & _)|[(l & _ & -> & _)|[(_ & -> & _)|(der & l & k & _ & -> & _)]]]; split; reflexivity. }
  destruct Zn as [Z1 Z2]. destruct C3 as (C31 & C32 & C33 & C34).
  assert (St : cx_stats cx1 = let s := cx_stats (so_ctx s) in mkStats (st_propagations s) (st_fixed_vars s) (st_binary s) (st_irredundant s) (st_redundant s) (st_vars s)
      (st_decisions s) (st_conflicts s) (st_restarts s + if b then 1 else 0) (st_reductions s)).
  { unfold cx1. destruct b; [reflexivity|]. rewrite Nat.add_0_r. destruct (cx_stats (so_ctx s)); reflexivity. }
  assert (R1 : restarts (mkSolver cx3 (mkState se3 sc2)) = restarts s + if b then 1 else 0).
  { unfold restarts. cbn [so_ctx]. rewrite C33, Z1, S2. cbn [st_restarts]. rewrite St. cbn. lia. }
  assert (R2 : reductions (mkSolver cx3 (mkState se3 sc2)) = reductions s + if b2 then 1 else 0).
  { unfold reductions. cbn [so_ctx]. rewrite C34, Z2, S2. cbn [st_reductions]. rewrite St. cbn. lia. }
  rewrite R1, R2. replace (restarts s <? restarts s + (if b then 1 else 0)) with b by (destruct b; lia). replace (reductions s <? reductions s + (if b2 then 1 else 0)) with b2 by (destruct b2; lia).
  split.
  { intros lg path clock out. destruct (E1' lg path out) as (bs1 & -> & P1). cbn [bind]. fold cx1. rewrite Esr.
    destruct (E2' lg path clock (out ++ bs1)) as (bs2 & -> & P2). cbn [bind]. destruct (E3' lg path ((out ++ bs1) ++ bs2)) as (bs3 & -> & P3). cbn [bind].
    exists (bs1 ++ bs2 ++ bs3). split; [rewrite !app_assoc; reflexivity|]. apply all_app; auto; apply all_app; auto. }
  split; [split; destruct b; lia|]. split; [split; destruct b2; lia|].
  assert (AT : assignments (se_prop se2) = assignments (se_prop se1) /\ level (se_prop se2) = level (se_prop se1)) by (unfold assignments, level; rewrite T2; auto).
  destruct AT as [A2 L2]. split; [congruence|]. split; [congruence|]. split; [intro Z; rewrite G2, G1; auto; destruct b2; auto; lia|].
  split; [unfold arena_words; change (se_prop (sta_search (so_state s))) with (so_prop s); rewrite W2, G1; reflexivity|]. split; [congruence|].
  split; [|split; [rewrite M2, St; cbn; lia|split; [exact N3|unfold counted; auto]]].
  rewrite S2 at 1. rewrite St. reflexivity.
Qed.

(** If the step fails, it fails in the same way with logging. *)
Lemma step_fails s lg path clock out : reach select dbg F s ->
  match schedule_search_step select dbg (so_ctx s) (so_state s) with
  | Ret _ => True
  | Panic e => schedule_search_step_logged lg path clock select dbg (so_ctx s) (so_state s) out = Panic e
  | OutOfFuel => schedule_search_step_logged lg path clock select dbg (so_ctx s) (so_state s) out = OutOfFuel
  end.
Proof.
  intro HR. pose proof (vis_solver _ _ _ _ HR) as HV. unfold schedule_search_step, schedule_search_step_logged.
  destruct (should_restart _ _) as [b sc1].
  destruct (restart_told b _ _ HV) as (se1 & -> & E1 & V1 & _). destruct (E1 lg path out) as (bs1 & -> & _). cbn [bind]. destruct (should_reduce _ _) as [b2 sc2].
  destruct (reduce_told b2 _ _ V1) as (cx2 & se2 & -> & E2 & V2 & _). destruct (E2 lg path clock (out ++ bs1)) as (bs2 & -> & _). cbn [bind].
  pose proof (search_told cx2 se2 V2) as HT. destruct (search_step dbg cx2 se2) as [[[r3 cx3] se3]| |]; cbn [bind]; auto; rewrite HT; reflexivity.
Qed.
End Step.

(** ** The decisions from the log *)
(** The decision of a level is the first literal assigned at this level. *)
Definition stack_of (A : list (N * nat)) (d : nat) (ds : list N) : Prop :=
  length ds = d /\ (forall a, In a A -> snd a <= d) /\
  forall j l, nth_error ds j = Some l -> find (fun a => snd a =? S j) A = Some (l, S j).

Lemma find_app {A} (f : A -> bool) l m : find f (l ++ m) = match find f l with Some x => Some x | None => find f m end.
Proof. induction l as [|x l IH]; auto. cbn [app find]. destruct (f x); auto. Qed.
Lemma find_none_lt {A} (f : A -> bool) l : (forall x, In x l -> f x = false) -> find f l = None.
Proof. induction l as [|x l IH]; intro H; auto. cbn [find]. rewrite H by (left; auto). apply IH. intros; apply H; right; auto. Qed.
Lemma stack_ext A d ds ext : stack_of A d ds -> (forall a, In a ext -> snd a = d) -> stack_of (A ++ ext) d ds.
Proof.
  intros (H1 & H2 & H3) Hx. split; auto. split.
  - intros a Ha. apply in_app_or in Ha as [Ha|Ha]; auto. rewrite (Hx a Ha). auto.
  - intros j l E. rewrite find_app, (H3 _ _ E). reflexivity.
Qed.
Lemma stack_decide A d ds l : stack_of A d ds -> stack_of (A ++ [(l, S d)]) (S d) (ds ++ [l]).
Proof.
  intros (H1 & H2 & H3). split; [rewrite app_length; cbn; lia|]. split.
  - intros a Ha. apply in_app_or in Ha as [Ha|[<-|[]]]; [specialize (H2 a Ha); lia|cbn; lia].
  - intros j m E. destruct (Nat.lt_ge_cases j (length ds)) as [G|G].
    + rewrite nth_error_app1 in E by auto. rewrite find_app, (H3 _ _ E). reflexivity.
    + rewrite nth_error_app2 in E by auto. destruct (j - length ds) as [|i] eqn:Ej; [|destruct i; discriminate]. cbn in E. inversion E; subst m.
      assert (j = d) by lia. subst j. rewrite find_app, find_none_lt.
      * cbn [find snd]. rewrite Nat.eqb_refl. reflexivity.
      * intros a Ha. specialize (H2 a Ha). lia.
Qed.
Lemma stack_upto A d ds k : stack_of A d ds -> k <= d -> stack_of (upto k A) k (firstn k ds).
Proof.
  intros (H1 & H2 & H3) Hk. split; [rewrite firstn_length; lia|]. split.
  - intros a Ha. apply filter_In in Ha as [_ Ha]. lia.
  - intros j l E. rewrite nth_error_firstn in E. destruct (Nat.ltb_spec j k) as [G|]; [|discriminate]. rewrite <- (H3 _ _ E). unfold upto.
    clear - G. induction A as [|a A IH]; auto. cbn [filter find]. destruct (Nat.leb_spec (snd a) k) as [L|L]; cbn [find].
    + destruct (snd a =? S j); auto.
    + destruct (Nat.eqb_spec (snd a) (S j)); auto. lia.
Qed.
Lemma nth_error_same {A} (l : list A) : forall m, (forall j, nth_error l j = nth_error m j) -> l = m.
Proof.
  induction l as [|x l IH]; intros [|y m] H; auto; try (specialize (H 0); discriminate). pose proof (H 0) as H0. inversion H0. f_equal. apply IH. intro j. exact (H (S j)).
Qed.
Lemma stack_unique A d ds ds' : stack_of A d ds -> stack_of A d ds' -> ds = ds'.
Proof.
  intros (H1 & _ & H3) (H1' & _ & H3'). apply nth_error_same. intro j. destruct (nth_error ds j) as [l|] eqn:E.
  - destruct (nth_error ds' j) as [l'|] eqn:E'.
    + apply H3 in E. apply H3' in E'. congruence.
    + apply nth_error_None in E'. assert (j < length ds) by (apply nth_error_Some; congruence). lia.
  - apply nth_error_None in E. symmetry. apply nth_error_None. lia.
Qed.

Lemma stack_decisions ss : (forall i s, nth_error ss i = Some s -> s_level s = length (filter is_decision (firstn (S i) ss))) ->
  stack_of (map (fun s => (s_lit s, s_level s)) ss) (length (filter is_decision ss)) (map s_lit (filter is_decision ss)).
Proof.
  induction ss as [|s ss IH] using rev_ind; intro H.
  - split; auto. split; [intros a []|]. intros [|j] l E; discriminate.
  - assert (Hss : forall i t, nth_error ss i = Some t -> s_level t = length (filter is_decision (firstn (S i) ss))).
    { intros i t E. assert (G : i < length ss) by (apply nth_error_Some; congruence). rewrite (H i t) by (rewrite nth_error_app1; auto).
      rewrite firstn_app. replace (S i - length ss) with 0 by lia. cbn [firstn]. rewrite app_nil_r. reflexivity. }
    specialize (IH Hss).
    assert (Hl : s_level s = length (filter is_decision (ss ++ [s]))).
    { rewrite (H (length ss) s) by (rewrite nth_error_app2, Nat.sub_diag by lia; reflexivity). rewrite firstn_all2 by (rewrite app_length; cbn; lia). reflexivity. }
    rewrite filter_app in *. cbn [filter] in *. rewrite !map_app. cbn [map]. rewrite app_length in *. destruct (is_decision s) eqn:D.
    + cbn [map length] in *. rewrite Hl. rewrite Nat.add_1_r in *. apply stack_decide; auto.
    + cbn [map length] in *. rewrite app_nil_r, Nat.add_0_r in *. apply stack_ext; auto. intros a [<-|[]]. exact Hl.
Qed.
Lemma visited_stack select dbg F cx se : select_ok (fun _ _ => True) select -> visited select dbg F cx se ->
  stack_of (assignments (se_prop se)) (level (se_prop se)) (decision_lits (se_prop se)).
Proof.
  intros Hs HV. unfold assignments, level, decision_lits.
  assert (E : decision_level (p_trail (se_prop se)) = length (filter is_decision (t_steps (p_trail (se_prop se))))).
  { destruct (visited_SI _ _ _ _ _ Hs HV) as (K & L & st & es & HK & H). pose proof (s_pi _ _ _ _ _ _ _ _ H) as HP. pose proof (pi_tr _ _ _ _ HP) as HT.
    pose proof (count_dec _ _ _ HP _ (Nat.le_refl _)) as C. rewrite firstn_all in C. rewrite C, (tr_dl _ _ HT). rewrite filter_all; auto.
    intros d Hd. apply (tr_ds _ _ HT) in Hd. apply Nat.ltb_lt. lia. }
  rewrite E. apply stack_decisions. intros i s Hi. eapply trail_reasons; eauto.
Qed.
Lemma replay_app a : forall ds b, replay ds (a ++ b) = match replay ds a with Some d => replay d b | None => None end.
Proof. induction a as [|n a IH]; intros ds b; [reflexivity|]. destruct n; cbn [app replay]; rewrite ?IH; auto. destruct (_ && _); auto. Qed.
Lemma search_replay F p r p' ns ds : search_notes F p r p' ns -> stack_of (assignments p) (level p) ds ->
  exists ds', replay ds ns = Some ds' /\ stack_of (assignments p') (level p') ds'.
Proof.
  unfold search_notes. intros H S0. destruct (p_unsat p); [destruct H as (-> & _ & ->); exists ds; auto|].
  destruct H as (live & ext & o & _ & Hext & -> & _ & O). pose proof (stack_ext _ _ _ _ S0 Hext) as S1.
  rewrite replay_app. replace (replay ds (if _ <=? _ then _ else _)) with (Some ds) by (destruct (_ <=? _); reflexivity).
  destruct O as [(_ & -> & -> & ->)|[(l & _ & -> & -> & ->)|[(_ & -> & Z & -> & ->)|(der & l & k & _ & -> & Hk & -> & -> & _)]]]; cbn [replay].
  - eauto.
  - exists (ds ++ [l]). split; auto. apply stack_decide; auto.
  - exists ds. split; auto. rewrite Z in S1. auto.
  - exists (firstn k ds). split.
    + destruct S0 as [S0 _]. replace (level p =? length ds) with true by lia. replace (k <? level p) with true by lia. reflexivity.
    + apply stack_ext; [apply stack_upto with (level p); auto; lia|]. intros a [<-|[]]; reflexivity.
Qed.

Section Solve.
Variables (select : selection) (dbg : bool) (F : list (list N)).
Hypothesis Hs : select_ok (fun _ _ => True) select.

Lemma step_replay s r cx st : reach select dbg F s -> schedule_search_step select dbg (so_ctx s) (so_state s) = Ret (r, cx, st) ->
  let s' := mkSolver cx st in
  exists pre, let ns := pre ++ match r with Some b => if p_unsat (so_prop s) then [] else [NAnswer b] | None => [] end in
    (forall lg path clock out, exists msg,
      schedule_search_step_logged lg path clock select dbg (so_ctx s) (so_state s) out = Ret (r, cx, st, out ++ msg) /\ all_printed lg path dbg ns msg) /\
    forallb is_search_note ns = true /\ count is_answer_note pre = 0 /\ counted (so_ctx s) cx ns /\
    replay (decision_lits (so_prop s)) ns = Some (decision_lits (so_prop s')) /\
    (r = None -> p_unsat (so_prop s') = false).
Proof.
  intros HR E. pose proof (step_told select dbg F Hs s r cx st HR E) as T. cbv zeta in *.
  assert (HR' : reach select dbg F (mkSolver cx st)) by (eapply reach_step; eauto).
  pose proof (visited_stack _ _ _ _ _ Hs (vis_solver _ _ _ _ HR)) as S0. pose proof (visited_stack _ _ _ _ _ Hs (vis_solver _ _ _ _ HR')) as S1.
  change (se_prop (sta_search (so_state s))) with (so_prop s) in S0. change (se_prop (sta_search (so_state (mkSolver cx st)))) with (so_prop (mkSolver cx st)) in S1.
  set (s' := mkSolver cx st) in *.
  destruct T as (mid & cxm & rest & E' & R1 & R2 & A & L & _ & _ & U & St & _ & SN & (C1 & C2 & C3 & C4)).
  set (n1 := if restarts s <? restarts s' then _ else _) in *. set (n2 := if reductions s <? reductions s' then _ else _) in *.
  assert (X : exists pre, rest = pre ++ (match r with Some b => if p_unsat (so_prop s) then [] else [NAnswer b] | None => [] end) /\ count is_answer_note pre = 0).
  { unfold search_notes in SN. rewrite U in SN. destruct (p_unsat (so_prop s)); [destruct SN as (-> & -> & _); exists []; auto|].
    destruct SN as (live & ext & o & _ & _ & -> & _ & O).
    assert (Z : forall m, count is_answer_note m = 0 -> count is_answer_note ((if 2 * words_needed live <=? length (a_buffer (p_long mid)) then [NCollect (length (a_buffer (p_long mid))) (words_needed live)] else []) ++ m) = 0).
    { intros m Hm. rewrite count_app, Hm. destruct (_ <=? _); reflexivity. }
    destruct O as [(-> & -> & _)|[(l & -> & -> & _)|[(-> & -> & _)|(der & l & k & -> & -> & _)]]].
    - eexists. split; [reflexivity|]. rewrite <- (app_nil_r (if _ <=? _ then _ else _)). apply Z; auto.
    - eexists. split; [symmetry; apply app_nil_r|]. apply Z; auto.
    - eexists. split; [reflexivity|]. rewrite <- (app_nil_r (if _ <=? _ then _ else _)). apply Z; auto.
    - eexists. split; [symmetry; apply app_nil_r|]. apply Z; auto. }
  destruct X as (pre & Er & Cp). exists (n1 ++ n2 ++ pre). rewrite <- !app_assoc, <- Er.
  split; auto. split.
  { rewrite !forallb_app. assert (Q : forallb is_search_note rest = true).
    { clear - SN. unfold search_notes in SN. destruct (p_unsat mid); [destruct SN as (-> & _); auto|]. destruct SN as (live & ext & o & _ & _ & -> & _ & O). rewrite forallb_app.
      destruct (_ <=? _); destruct O as [(_ & -> & _)|[(l & _ & -> & _)|[(_ & -> & _)|(der & l & k & _ & -> & _)]]]; reflexivity. }
    rewrite Q. unfold n1, n2. destruct (_ <? _); destruct (_ <? _); try destruct (_ <? _); reflexivity. }
  split.
  { rewrite !count_app, Cp. unfold n1, n2. destruct (_ <? _); destruct (_ <? _); try destruct (_ <? _); reflexivity. }
  split.
  { unfold counted. rewrite !count_app. rewrite C1, C2, C3, C4, St. cbn [st_decisions st_conflicts st_restarts st_reductions]. unfold restarts, reductions, decisions, conflicts, s' in *. cbn [so_ctx] in *.
    assert (Q : forall f, (f NRestart = false) -> (forall a b, f (NBacktrack a b) = false) -> f NReduce = false -> (forall b s, f (NReport b s) = false) -> count f n1 + count f n2 = 0).
    { intros f Q1 Q2 Q3 Q4. unfold n1, n2, count. destruct (_ <? _); destruct (_ <? _); try destruct (_ <? _); cbn [filter length]; rewrite ?Q1, ?Q2, ?Q3, ?Q4; cbn [filter length]; rewrite ?Q2, ?Q4; reflexivity. }
    pose proof (Q is_decision_note eq_refl (fun _ _ => eq_refl) eq_refl (fun _ _ => eq_refl)).
    pose proof (Q is_conflict_note eq_refl (fun _ _ => eq_refl) eq_refl (fun _ _ => eq_refl)).
    assert (W1 : count is_restart_note n1 = if st_restarts (cx_stats (so_ctx s)) <? st_restarts (cx_stats cx) then 1 else 0) by (unfold n1; destruct (_ <? _); try destruct (_ <? _); reflexivity).
    assert (W2 : count is_restart_note n2 = 0) by (unfold n2; destruct (st_reductions _ <? _); reflexivity).
    assert (W3 : count is_reduce_note n2 = if st_reductions (cx_stats (so_ctx s)) <? st_reductions (cx_stats cx) then 1 else 0) by (unfold n2; destruct (st_reductions _ <? _); reflexivity).
    assert (W4 : count is_reduce_note n1 = 0) by (unfold n1; destruct (_ <? _); try destruct (_ <? _); reflexivity).
    rewrite W1, W2, W3, W4. rewrite St in C3, C4. cbn [st_restarts st_reductions] in C3, C4.
    destruct (Nat.ltb_spec (st_restarts (cx_stats (so_ctx s))) (st_restarts (cx_stats cx))); destruct (Nat.ltb_spec (st_reductions (cx_stats (so_ctx s))) (st_reductions (cx_stats cx))); repeat split; lia. }
  split.
  { assert (X : exists ds, replay (decision_lits (so_prop s)) (n1 ++ n2) = Some ds /\ stack_of (assignments mid) (level mid) ds).
    { rewrite A, L. rewrite replay_app. unfold n1, n2. destruct (_ <? _).
      - destruct (Nat.ltb_spec 0 (level (so_prop s))) as [G|G]; cbn [replay].
        + destruct S0 as (S01 & S02). rewrite S01, Nat.eqb_refl, (proj2 (Nat.ltb_lt _ _) G). cbn [andb]. exists (firstn 0 (decision_lits (so_prop s))). split; [destruct (_ <? _); reflexivity|].
          apply stack_upto with (level (so_prop s)); [split; auto|lia].
        + exists (decision_lits (so_prop s)). split; [destruct (_ <? _); reflexivity|]. replace (level (so_prop s)) with 0 in S0 by lia.
          destruct (decision_lits (so_prop s)) eqn:Ed; [|destruct S0; discriminate]. apply (stack_upto _ _ _ 0 S0). lia.
      - cbn [replay]. exists (decision_lits (so_prop s)). split; [destruct (_ <? _); reflexivity|auto]. }
    destruct X as (ds & X1 & X2). rewrite app_assoc, replay_app, X1. destruct (search_replay _ _ _ _ _ _ SN X2) as (ds' & -> & X3). f_equal. eapply stack_unique; eauto. }
  intros ->. unfold search_notes in SN. destruct (p_unsat mid); [destruct SN as (_ & Z & _); discriminate|].
  destruct SN as (live & ext & o & _ & _ & _ & Z & _). exact Z.
Qed.

(** ** C79: the log of a [solve] call tells what happened *)
(** [pre] are the notes before the answer.  A solver that is already known to be
    unsatisfiable answers without saying so. *)
Theorem solve_told : forall fuel s b s', reach select dbg F s -> solve select dbg fuel s = Ret (b, s') ->
  exists pre, let ns := pre ++ (if p_unsat (so_prop s) then [] else [NAnswer b]) ++ [NReport true (cx_stats (so_ctx s'))] in
    (forall lg path clock out, exists msg,
      solve_logged lg path clock select dbg fuel s out = Ret (b, s', out ++ msg) /\ all_printed lg path dbg ns msg) /\
    forallb is_search_note ns = true /\ count is_answer_note pre = 0 /\
    counted (so_ctx s) (so_ctx s') ns /\
    replay (decision_lits (so_prop s)) ns = Some (decision_lits (so_prop s')).
Proof.
  induction fuel as [|f IH]; intros s b s' HR E; [discriminate|]. cbn [solve] in E.
  destruct (schedule_search_step select dbg (so_ctx s) (so_state s)) as [[[r cx] st]| |] eqn:ES; cbn [bind] in E; try discriminate.
  destruct (step_replay s r cx st HR ES) as (pre & P & SR & CA & CN & RP & UN).
  assert (HR' : reach select dbg F (mkSolver cx st)) by (eapply reach_step; eauto).
  destruct r as [b0|].
  - destruct (report_told select dbg F Hs _ _ true (vis_solver _ _ _ _ HR')) as (Er & Er'). cbn [so_ctx] in Er, Er'.
    rewrite Er in E. cbn [bind] in *. inversion E; subst b0 s'. clear E. exists pre. rewrite !app_assoc. cbn [so_ctx]. split.
    { intros lg path clock out. cbn [solve_logged]. destruct (P lg path clock out) as (msg & -> & P'). cbn [bind].
      destruct (Er' lg path clock (out ++ msg)) as (bs & -> & Pr). cbn [bind]. exists (msg ++ bs). split; [rewrite app_assoc; reflexivity|]. apply all_app; auto; apply all_one; auto. }
    split; [rewrite forallb_app; rewrite SR; reflexivity|]. split; auto. split.
    + apply counted_app with cx; auto. unfold counted, count. cbn. lia.
    + rewrite replay_app, RP. reflexivity.
  - cbn [bind] in *. specialize (UN eq_refl). rewrite app_nil_r in P, SR, CN, RP.
    destruct (IH _ _ _ HR' E) as (pre2 & P2 & SR2 & CA2 & CN2 & RP2). rewrite UN in *.
    assert (U0 : p_unsat (so_prop s) = false).
    { destruct (p_unsat (so_prop s)) eqn:U; auto. destruct (step_unsat _ _ _ _ _ _ _ ES U) as [Z _]. discriminate. }
    rewrite U0. exists (pre ++ pre2). cbv zeta in *. rewrite <- (app_assoc pre). split.
    { intros lg path clock out. cbn [solve_logged]. destruct (P lg path clock out) as (msg & -> & P'). cbn [bind].
      destruct (P2 lg path clock (out ++ msg)) as (msg2 & -> & P2'). exists (msg ++ msg2). split; [rewrite app_assoc; reflexivity|]. apply all_app; auto. }
    split; [rewrite forallb_app, SR; exact SR2|].
    split; [rewrite count_app; lia|]. split; [eapply counted_app; eauto|]. rewrite replay_app, RP. exact RP2.
Qed.

(** ** C80: logging changes nothing *)
Definition forget {A} (r : res (A * list N)) : res A :=
  match r with Ret (a, _) => Ret a | Panic e => Panic e | OutOfFuel => OutOfFuel end.
Theorem step_passive s lg path clock out : reach select dbg F s ->
  forget (schedule_search_step_logged lg path clock select dbg (so_ctx s) (so_state s) out) = schedule_search_step select dbg (so_ctx s) (so_state s).
Proof.
  intro HR. pose proof (step_fails select dbg F Hs s lg path clock out HR) as HF.
  destruct (schedule_search_step select dbg (so_ctx s) (so_state s)) as [[[r cx] st]| |] eqn:ES; [|rewrite HF; reflexivity..].
  destruct (step_replay s r cx st HR ES) as (pre & P & _). destruct (P lg path clock out) as (msg & -> & _). reflexivity.
Qed.
Theorem solve_passive fuel lg path clock : forall s out, reach select dbg F s ->
  forget (solve_logged lg path clock select dbg fuel s out) = solve select dbg fuel s.
Proof.
  induction fuel as [|f IH]; intros s out HR; [reflexivity|]. cbn [solve solve_logged].
  pose proof (step_fails select dbg F Hs s lg path clock out HR) as HF.
  destruct (schedule_search_step select dbg (so_ctx s) (so_state s)) as [[[r cx] st]| |] eqn:ES; [|rewrite HF; reflexivity..].
  destruct (step_replay s r cx st HR ES) as (pre & P & _). destruct (P lg path clock out) as (msg & -> & _). cbn [bind].
  assert (HR' : reach select dbg F (mkSolver cx st)) by (eapply reach_step; eauto). destruct r as [b0|]; [|apply IH; auto].
  destruct (report_told select dbg F Hs _ _ true (vis_solver _ _ _ _ HR')) as (Er & Er'). cbn [so_ctx] in Er, Er'.
  destruct (Er' lg path clock (out ++ msg)) as (bs & Er2 & _). rewrite Er, Er2. reflexivity.
Qed.
End Solve.

(** ** The program's standard output *)
(** Every printed note is one comment line. *)
Definition plain (b : list N) : Prop := ~ In 10%N b.
Definition plain_note (n : note) : Prop :=
  match n with
  | NResult _ d => plain d
  | NConflicts _ x | NDecisions _ x | NPropagations _ x => plain x
  | _ => True
  end.
Lemma plain_app a b : plain a -> plain b -> plain (a ++ b).
Proof. unfold plain. rewrite in_app_iff. tauto. Qed.
Lemma plain_check a : forallb (fun b => negb (b =? 10)%N) a = true -> plain a.
Proof. intros H G. rewrite forallb_forall in H. specialize (H _ G). discriminate. Qed.
Lemma plain_cons b a : (b =? 10)%N = false -> plain a -> plain (b :: a).
Proof. intros H G [->|K]; [discriminate|contradiction]. Qed.
Lemma plain_decimal k : plain (decimal k).
Proof. apply digits_ok. Qed.
Lemma plain_lit l : plain (lit_display l).
Proof. apply ascii_ok. Qed.
Lemma plain_commas c : plain (commas c).
Proof.
  induction c as [|l c IH]; [intros []|]. cbn [commas]. destruct c; [apply plain_lit|]. apply plain_app; [apply plain_lit|]. apply plain_app; auto. apply plain_check. reflexivity.
Qed.
Lemma report_plain dbg s time ps : report_pieces dbg s time = Ret ps -> forall p, In p ps -> plain p.
Proof.
  unfold report_pieces. destruct (usize_sub _ _ _) as [v| |]; cbn [bind]; try discriminate. destruct (usize_mul _ _ _) as [m| |]; cbn [bind]; try discriminate.
  intro E. injection E as <-.
  assert (FP : forall f w k, (f =? 10)%N = false -> plain (fmt_pad f w k)).
  { intros f w k Hf. unfold fmt_pad. apply plain_app; [|apply digits_ok]. intro G. apply repeat_spec in G. subst f. discriminate. }
  intros p Hp. repeat (destruct Hp as [<-|Hp]; [unfold fmt_width; repeat first [apply FP; reflexivity|apply plain_check; reflexivity|apply plain_app|apply plain_cons; [reflexivity|]]|]). contradiction.
Qed.
Ltac plain_text := repeat first [apply plain_decimal|apply plain_lit|apply plain_commas|assumption|apply plain_check; reflexivity|apply plain_app|apply plain_cons; [reflexivity|]].
Lemma printed_line lg path dbg n bs : (forall f, plain f -> plain (path f)) -> plain_note n -> printed lg path dbg n bs ->
  bs = [] \/ exists body, bs = 99%N :: body ++ [10%N] /\ plain body.
Proof.
  intros Hp Hn H.
  assert (G : (forall b s, n <> NReport b s) -> bs = (if (level_u8 (note_level n) <? lg_limit lg)%N then note_text n ++ location lg path n ++ [10%N] else []) ->
    bs = [] \/ exists body, bs = 99%N :: body ++ [10%N] /\ plain body).
  { intros Hr ->. destruct (_ <? _)%N; auto. right. exists (tl (note_text n) ++ location lg path n).
    assert (Pl : plain (location lg path n)).
    { unfold location. destruct (lg_source lg); [|intros []]. assert (plain (path (text (fst (note_source n))))) by (apply Hp; destruct n as [| | | |[]| | | |[]| | | |]; apply plain_check; reflexivity).
      assert (plain (text (snd (note_source n)))) by (destruct n as [| | | |[]| | | |[]| | | |]; apply plain_check; reflexivity). plain_text. }
    split; [|apply plain_app; auto].
    - rewrite <- !app_assoc. destruct n as [| | | |f s| | | |[]|[]| | |]; try reflexivity. exfalso. exact (Hr f s eq_refl).
    - destruct n as [| | | |f s| | | |[]|[]| | |]; cbn [plain_note] in Hn; unfold note_text;
        try (apply plain_check; reflexivity); try (exfalso; exact (Hr f s eq_refl)); cbn [text list_ascii_of_string map app tl]; plain_text. }
  destruct n as [| | | |f s| | | |[]|[]| | |]; try (apply G; [congruence|exact H]).
  clear G. cbn [printed] in H. destruct H as (t & H). unfold report_print in H. destruct (level_u8 LInfo <? lg_limit lg)%N eqn:El; [|inversion H; auto].
  destruct (report_pieces _ _ _) as [ps| |] eqn:Ep; cbn [bind] in H; try discriminate. inversion H; subst bs. clear H.
  destruct (log_shape lg (LInfo, (path (text (fst (note_source (NReport f s)))), text (snd (note_source (NReport f s)))), ps)) as [Z|Z].
  - cbn [one_line]. split; [apply Hp; destruct f; apply plain_check; reflexivity|]. split; [destruct f; apply plain_check; reflexivity|]. apply (report_plain _ _ _ _ Ep).
  - cbn [log_message] in Z. unfold log in Z. rewrite El in Z. auto.
  - cbn [log_message] in Z. unfold log in Z. rewrite El in Z. auto.
Qed.
Lemma all_comments lg path dbg ns msg r : (forall f, plain f -> plain (path f)) -> (forall n, In n ns -> plain_note n) -> all_printed lg path dbg ns msg ->
  filter (fun l => negb (is_comment l)) (lines [] (msg ++ r)) = filter (fun l => negb (is_comment l)) (lines [] r).
Proof.
  intros Hp Hn H. induction H as [|n bs ns r0 H _ IH]; auto. rewrite <- app_assoc.
  destruct (printed_line _ _ _ _ _ Hp (Hn n (or_introl eq_refl)) H) as [->|(body & -> & Hb)]; [apply IH; intros; apply Hn; right; auto|].
  change ((99%N :: body ++ [10%N]) ++ r0 ++ r) with (99%N :: (body ++ [10%N]) ++ r0 ++ r). rewrite <- app_assoc.
  change (99%N :: body ++ [10%N] ++ r0 ++ r) with ((99%N :: body) ++ 10%N :: r0 ++ r). rewrite lines_one by (apply plain_cons; auto).
  cbn [app filter is_comment]. change (99 =? 99)%N with true. cbn [negb]. apply IH. intros; apply Hn; right; auto.
Qed.

Lemma built_fresh dbg F s : built dbg F s ->
  filter is_decision (t_steps (p_trail (so_prop s))) = [] /\ decisions s = 0 /\ conflicts s = 0 /\ restarts s = 0 /\ reductions s = 0.
Proof.
  induction 1 as [|F s c s' HB IH Hc E|F s HB IH|F s HB IH]; [cbn; auto 10| |exact IH|exact IH].
  destruct IH as (I1 & I2 & I3 & I4 & I5). unfold solver_add_clause in E.
  match type of E with bind ?x _ = _ => destruct x as [[cx1 se1]| |] eqn:E1; cbn [bind] in E; try discriminate end.
  assert (G : t_steps (p_trail (se_prop se1)) = t_steps (p_trail (so_prop s)) /\ st_decisions (cx_stats cx1) = 0 /\ st_conflicts (cx_stats cx1) = 0 /\ st_restarts (cx_stats cx1) = 0 /\ st_reductions (cx_stats cx1) = 0).
  { unfold decisions, conflicts, restarts, reductions in *. destruct (_ <? _); [|inversion E1; subst; auto 10].
    unfold search_resize in E1. destruct (vsids_resize _ _); cbn [bind] in E1; try discriminate. inversion E1; subst. cbn. auto 10. }
  destruct G as (G1 & G2 & G3 & G4 & G5). destruct (add_clause_verbatim _ _ _ _ _) as [[[ad cx2] p2]| |] eqn:E2; cbn [bind] in E; try discriminate. inversion E; subst s'. clear E.
  unfold decisions, conflicts, restarts, reductions, so_prop. cbn [so_ctx so_state sta_search se_prop].
  unfold add_clause_verbatim in E2. destruct c as [|a [|b [|x c]]].
  - inversion E2; subst. cbn [p_set_unsat p_trail]. rewrite G1. auto 10.
  - destruct (pa_is_false _ _) as [[]| |]; cbn [bind] in E2; try discriminate.
    + inversion E2; subst. cbn [p_set_unsat p_trail]. rewrite G1. auto 10.
    + destruct (assign _ _ _) as [p3| |] eqn:E3; cbn [bind] in E2; try discriminate. inversion E2; subst. destruct (assign_steps _ _ _ _ E3) as (-> & _ & _).
      rewrite filter_app, G1, I1. cbn. auto 10.
  - destruct (bin_add _ _ _); cbn [bind] in E2; try discriminate. inversion E2; subst. cbn. rewrite G1. auto 10.
  - destruct (long_add_clause _ _ _) as [[[r|] a2]| |]; cbn [bind] in E2; try discriminate.
    destruct (watch_clause _ _ _ _); cbn [bind] in E2; try discriminate. inversion E2; subst. cbn [p_set_watches p_set_long p_trail]. rewrite G1.
    unfold cx_with. cbn [cx_stats]. destruct (lh_redundant lh_new_input); cbn; auto 10.
Qed.

(** [ns] is what happened, whatever is printed of it. *)
Theorem cli_told select dbg fuel proof n F ls code s :
  select_ok (fun _ _ => True) select -> valid_cnf F ->
  cli_run select dbg fuel proof n F = Ret (ls, code, s) ->
  exists b ns, let st := cx_stats (so_ctx s) in
    (forall lg path clock duration cps dpc pps, exists msg,
      cli_logged lg path clock select dbg fuel proof n F duration cps dpc pps = Ret (msg ++ print_lines ls, code) /\
      all_printed lg path dbg
        (NHello :: ns ++ [NResult b duration; NConflicts (st_conflicts st) cps; NDecisions (st_decisions st) dpc; NPropagations (st_propagations st) pps]) msg /\
      ((forall f, plain f -> plain (path f)) -> plain duration -> plain cps -> plain dpc -> plain pps ->
       filter (fun l => negb (is_comment l)) (lines [] (msg ++ print_lines ls)) = ls)) /\
    (b = true <-> exists vs, ls = text "s SATISFIABLE" :: vs) /\ (b = false <-> ls = [text "s UNSATISFIABLE"]) /\
    forallb is_search_note ns = true /\
    st_decisions st = count is_decision_note ns /\ st_conflicts st = count is_conflict_note ns /\
    st_restarts st = count is_restart_note ns /\ st_reductions st = count is_reduce_note ns /\
    replay [] ns = Some (decision_lits (so_prop s)).
Proof.
  intros Hs HF E. unfold cli_run in E. unfold cli_logged. set (s0 := if proof then solver_write_proof solver_new else solver_new) in *.
  assert (B0 : built dbg [] s0) by (unfold s0; destruct proof; [apply built_write_proof|]; constructor).
  destruct (add_clauses dbg s0 F) as [s1| |] eqn:EA; cbn [bind] in *; try discriminate.
  pose proof (adds_built _ _ _ _ _ B0 HF EA) as B1. cbn [app] in B1. destruct (built_fresh _ _ _ B1) as (D1 & Z1 & Z2 & Z3 & Z4).
  destruct (solve select dbg fuel s1) as [[b s2]| |] eqn:ES; cbn [bind] in *; try discriminate.
  destruct (solve_told select dbg F Hs fuel s1 b s2 (reach_built _ _ _ _ B1) ES) as (pre & P & SR & _ & (C1 & C2 & C3 & C4) & RP).
  set (ns := pre ++ _) in *.
  assert (CL : cli_run select dbg fuel proof n F = Ret (ls, code, s)).
  { unfold cli_run. fold s0. rewrite EA. cbn [bind]. rewrite ES. cbn [bind]. exact E. }
  assert (Z : s2 = s /\ code = 20 /\ (if b then exists vs, v_lines (solver_value s2) n = Ret vs /\ ls = s_sat :: vs else ls = [s_unsat])).
  { destruct b; [|inversion E; auto]. destruct (v_lines _ _) as [vs| |]; cbn [bind] in E; try discriminate. inversion E. eauto. }
  destruct Z as (-> & -> & Els). exists b, ns. cbv zeta. split.
  { intros lg path clock duration cps dpc pps. note_line dbg NHello. rewrite app_nil_l. destruct (P lg path clock bs) as (msg & -> & P'). cbn [bind].
    note_line dbg (NResult b duration).
    note_line dbg (NConflicts (st_conflicts (cx_stats (so_ctx s))) cps).
    note_line dbg (NDecisions (st_decisions (cx_stats (so_ctx s))) dpc).
    note_line dbg (NPropagations (st_propagations (cx_stats (so_ctx s))) pps).
    exists (((((bs ++ msg) ++ bs0) ++ bs1) ++ bs2) ++ bs3). split.
    { destruct b; [destruct Els as (vs & Ev & ->); rewrite Ev; reflexivity|rewrite Els; reflexivity]. }
    assert (AP : all_printed lg path dbg (NHello :: ns ++ [NResult b duration; NConflicts (st_conflicts (cx_stats (so_ctx s))) cps;
        NDecisions (st_decisions (cx_stats (so_ctx s))) dpc; NPropagations (st_propagations (cx_stats (so_ctx s))) pps]) (((((bs ++ msg) ++ bs0) ++ bs1) ++ bs2) ++ bs3)).
    { rewrite <- !app_assoc. constructor; auto. apply all_app; auto. constructor; auto. constructor; auto. constructor; auto. apply all_one; auto. }
    split; [exact AP|]. intros Hp P1 P2 P3 P4. erewrite all_comments; [|exact Hp| |exact AP].
    - apply (log_transparent lg []); [intros m []|]. eapply cli_lines_ok; eauto.
    - assert (G : forall x, In x ns -> plain_note x).
      { intros x Hx. rewrite forallb_forall in SR. specialize (SR x Hx). destruct x; try discriminate; exact I. }
      intros x [<-|Hx]; [exact I|]. apply in_app_or in Hx as [Hx|Hx]; auto. cbn [In] in Hx. intuition (subst; auto). }
  unfold decisions, conflicts, restarts, reductions in *. split; [destruct b; [destruct Els as (vs & _ & ->); split; eauto; intro; exists vs; reflexivity|rewrite Els; split; [discriminate|intros (vs & Q); discriminate]]|].
  split; [destruct b; [destruct Els as (vs & _ & ->); split; discriminate|rewrite Els; split; auto]|]. split; [exact SR|].
  split; [lia|]. split; [lia|]. split; [lia|]. split; [lia|]. unfold decision_lits in RP at 1; rewrite D1 in RP; exact RP.
Qed.

(** Logging changes neither the outcome of the program nor its exit code. *)
Theorem cli_passive lg path clock select dbg fuel proof n F duration cps dpc pps :
  select_ok (fun _ _ => True) select -> valid_cnf F ->
  match cli_logged lg path clock select dbg fuel proof n F duration cps dpc pps with
  | Ret (_, code) => exists ls s, cli_run select dbg fuel proof n F = Ret (ls, code, s)
  | Panic e => cli_run select dbg fuel proof n F = Panic e
  | OutOfFuel => cli_run select dbg fuel proof n F = OutOfFuel
  end.
Proof.
  intros Hs HF. unfold cli_run, cli_logged. set (s0 := if proof then solver_write_proof solver_new else solver_new) in *.
  assert (B0 : built dbg [] s0) by (unfold s0; destruct proof; [apply built_write_proof|]; constructor).
  destruct (add_clauses dbg s0 F) as [s1| |] eqn:EA; cbn [bind]; auto.
  pose proof (adds_built _ _ _ _ _ B0 HF EA) as B1. cbn [app] in B1.
  set (out := emit _ _ _ _ _ _ _).
  pose proof (solve_passive select dbg F Hs fuel lg path clock s1 out (reach_built _ _ _ _ B1)) as P. rewrite <- P.
  destruct (solve_logged lg path clock select dbg fuel s1 out) as [[[b s2] o]| |]; cbn [forget bind]; auto.
  destruct b; cbn [bind].
  - destruct (v_lines (solver_value s2) n); cbn [bind]; eauto.
  - eauto.
Qed.

(** ** Examples *)
(** The whole output of the program for two variables and four clauses with -vvv. *)
Example trace_example :
  let lg := cli_logger 3 0 false in
  cli_logged lg (fun f => f) (fun _ => 0%N) select_sort true 100 false 2 unsat2 (text "1ms") (text "2k") (text "0.50") (text "0") =
  Ret (text "c Starlit SAT Solver
c D: restart
c D: reduce
c 0.00 red:  1 res:   1 cfl:     0 bin:  4 red:   0 irr:   0 var:   2 100%
c D: garbage collection Utilization { allocated: 0, used: 0 }
c T: decision: -1
c D: garbage collection Utilization { allocated: 0, used: 0 }
c T: 1-uip clause: [1]
c T: backtrack from: 1 to: 0
c D: garbage collection Utilization { allocated: 0, used: 0 }
c V: unsatisfiable
c 0.00 red:  1 res:   1 cfl:     2 bin:  4 red:   0 irr:   0 var:   2 100%
c satisfiable: false duration: 1ms
c conflicts: 2 per_sec: 2k
c decisions: 1 per_conflict: 0.50
c propagations: 0 per_sec: 0
s UNSATISFIABLE
", 20) /\
  replay [] [NDecision 0; NUip [1%N]; NBacktrack 1 0; NAnswer false] = Some [] /\
  replay [] [NDecision 0; NDecision 3; NBacktrack 1 0] = None.
Proof. split; [vm_compute; reflexivity|]. split; reflexivity. Qed.
(** The hypotheses of the theorems hold for it: *)
Example trace_applies : exists b ns,
  (forall lg, exists msg, cli_logged lg (fun f => f) (fun _ => 0%N) select_sort true 1000 true 12 php4 [] [] [] [] = Ret (msg ++ print_lines [text "s UNSATISFIABLE"], 20)) /\
  count is_decision_note ns = 6 /\ count is_conflict_note ns = 6 /\ b = false.
Proof.
  destruct (cli_told select_sort true 1000 true 12 php4 [text "s UNSATISFIABLE"] 20 (snd (outcome true php4))
    any_select_sort (valid_cnfb_ok php4 eq_refl)) as (b & ns & E & _ & B & _ & D & C & _); [vm_compute; reflexivity|].
  exists b, ns. split. { intro lg. destruct (E lg (fun f => f) (fun _ => 0%N) [] [] [] []) as (msg & E' & _). eauto. }
  rewrite <- D, <- C. split; [vm_compute; reflexivity|]. split; [vm_compute; reflexivity|]. apply B. reflexivity.
Qed.

Print Assumptions step_told.
Print Assumptions solve_told.
Print Assumptions step_passive.
Print Assumptions solve_passive.
Print Assumptions cli_told.
Print Assumptions cli_passive.
